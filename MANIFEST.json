{
 "claims": [
  {
   "property": "C01",
   "status": "partial",
   "theorems": [
    "C01_growing_set_partial",
    "C01_fixed_set",
    "C01_growing_inserts",
    "C01_default_size_refuted"
   ],
   "note": "proved for growing sets of constructor size >= 2, for fixed sets with fewer keys than cells, and for insertion-only histories of any size; refuted for queries on a default-constructed set"
  },
  {
   "property": "C02",
   "status": "proved",
   "theorems": [
    "C02_query_returns",
    "C02_fixed_insert_returns"
   ],
   "note": "returns/diverges characterised for every reached state"
  },
  {
   "property": "C03",
   "status": "proved",
   "theorems": [
    "C03_growing_keeps_free_cell"
   ],
   "note": ""
  },
  {
   "property": "C04",
   "status": "partial",
   "theorems": [
    "C04_merge_union",
    "C04_filter_difference",
    "C04_merge_filtered_partial",
    "C04_merge_filtered_cmp_refuted",
    "C04_merge_filtered_empty_refuted"
   ],
   "note": "union, difference and filtered merge (cmp=false) proved; cmp=true and the merge of two empty sets are refuted"
  },
  {
   "property": "C05",
   "status": "proved",
   "theorems": [
    "C05_copy",
    "C05_save_load",
    "C05_equality"
   ],
   "note": "equality is proved when the left set has a free cell (otherwise a query may not return, C02)"
  },
  {
   "property": "C06",
   "status": "proved",
   "theorems": [
    "C06_iteration",
    "C06_decrement"
   ],
   "note": "LP_Set iterator and TBB range; the same range type is used by LP_Map and LP_MultiMap"
  },
  {
   "property": "C07",
   "status": "partial",
   "theorems": [
    "C07_inserts",
    "C07_get_last_write",
    "C07_history_partial",
    "C07_size_zero_undefined",
    "C07_merge",
    "C07_merge_filtered",
    "C07_iteration",
    "C07_save_load"
   ],
   "note": "Insert/size histories, last-write semantics in every reached state, merge, filtered merge, iteration and serialization are proved for every multiplier and size >= 1; whole histories with interleaved lookups are proved while the table is not full, because a lookup of an absent key in a full table never returns (C09)."
  },
  {
   "property": "C08",
   "status": "partial",
   "theorems": [
    "C08_contains_partial",
    "C08_zero_value_refuted"
   ],
   "note": "contains() is proved to report whether the last value is non-zero; for value 0 the claim is false of the code and refuted."
  },
  {
   "property": "C09",
   "status": "partial",
   "theorems": [
    "C09_map_lookup_partial",
    "C09_multimap_lookup_partial",
    "C09_lookup_absent_refuted",
    "C09_multimap_lookup_refuted"
   ],
   "note": "False as stated: LP_Map and LP_MultiMap fill up completely, and then absent lookups (and multimap get) loop forever; proved for tables with a free cell."
  },
  {
   "property": "C10",
   "status": "partial",
   "theorems": [
    "C10_inserts",
    "C10_get_partial",
    "C10_get_one_free_partial",
    "C10_one_free_refuted",
    "C10_full_diverges",
    "C10_contains",
    "C10_merge",
    "C10_merge_filtered",
    "C10_iteration",
    "C10_save_load",
    "C10_size_zero_undefined"
   ],
   "note": "get is exact with at least two free cells, right or empty with one, never returns with none; contains, size, merge, filtered merge, iteration and serialization proved."
  },
  {
   "property": "C11",
   "status": "proved",
   "theorems": [
    "C11_linearizable",
    "C11_stored_once",
    "C11_one_winner",
    "C11_answered",
    "C11_at_rest",
    "C11_safe",
    "C11_new",
    "C11_new_zero_refuted"
   ],
   "note": "All interleavings; linearizable, each key stored once, at most one true, answered keys stored. Size 0 is refuted (no cells)."
  },
  {
   "property": "C12",
   "status": "proved",
   "theorems": [
    "C12_visible",
    "C12_no_ghost",
    "C11_linearizable"
   ],
   "note": "All interleavings."
  },
  {
   "property": "C13",
   "status": "proved",
   "theorems": [
    "C13_size"
   ],
   "note": "All interleavings."
  },
  {
   "property": "C14",
   "status": "proved",
   "theorems": [
    "C14_own_steps",
    "C14_terminates",
    "C14_progress",
    "C14_growing",
    "C14_race_refuted",
    "C14_growing_load",
    "C14_growing_lookups"
   ],
   "note": "Wait-free bound under the capacity hypothesis; C14_race_refuted shows the hypothesis is needed."
  },
  {
   "property": "C15",
   "status": "proved",
   "theorems": [
    "C15_linearizable",
    "C15_stored_once",
    "C15_one_winner",
    "C15_at_rest",
    "C15_visible",
    "C15_safe",
    "C15_own_steps",
    "C15_terminates",
    "C15_progress",
    "C15_new",
    "C15_value_before_write_refuted",
    "C15_last_write_refuted",
    "C15_new_zero_refuted",
    "C15_internal_insert_refuted"
   ],
   "note": "All interleavings: keys linearizable, stored once, one winner; at rest get returns the value of an answered insert. Per-value linearizability, reads during the first insert, size 0 and the unused internal _insert are refuted separately."
  },
  {
   "property": "C16",
   "status": "partial",
   "theorems": [
    "C16_rehash",
    "C16_merge",
    "C16_filtered_merge",
    "C16_small_rehash_refuted"
   ],
   "note": "Proved when the new table is at most half full, which merge always ensures; refuted for a rehash into a smaller table, where inserts answer Full and the entry is dropped."
  },
  {
   "property": "C17",
   "status": "partial",
   "theorems": [
    "C17_linearizable",
    "C17_at_rest",
    "C17_get",
    "C17_rehash",
    "C17_merge",
    "C17_get_small_refuted",
    "C17_empty_merge_refuted"
   ],
   "note": "All interleavings: linearizable bag, one cell per true; get at rest exact with two free cells, refuted without; rehash and merge keep every pair, except that merging two empty multimaps leaves no cells."
  },
  {
   "property": "C18",
   "status": "partial",
   "theorems": [
    "C18_safe",
    "C18_kept",
    "C18_insert_kept",
    "C18_insert_newest_kept",
    "C18_origin",
    "C18_no_deadlock",
    "C18_sequential",
    "C18_insert_kept_refuted",
    "C18_insert_once_refuted",
    "C18_race_free_refuted",
    "C18_size_zero_never_returns",
    "C18_size_zero_lookup_refuted"
   ],
   "note": "Proved for every schedule: safety, growth keeps every settled key, inserts with no growth under way settle their key, nothing is invented, no deadlock, set semantics when calls do not overlap. Refuted as stated: an insert that overlaps a growth can be lost; getTable races with grow; size 0 never grows. Set instance only (map and multimap values not carried through growth)."
  },
  {
   "property": "C19",
   "status": "partial",
   "theorems": [
    "C19_history",
    "C19_contains",
    "C19_insert",
    "C19_erase",
    "C19_insert_outside_undefined",
    "C19_zeros_partial",
    "C19_zeros_refuted"
   ],
   "note": "Bit_Set behaves as a set of indices for every history; zeros() is exact only when the bounds are multiples of 32 (C19_zeros_refuted): it counts the rounded capacity."
  },
  {
   "property": "C20",
   "status": "partial",
   "theorems": [
    "C20_merge",
    "C20_mergeFilter",
    "C20_resize",
    "C20_copy",
    "C20_filter_partial",
    "C20_filter_ones_refuted"
   ],
   "note": "merge, mergeFilter, resize and copy are exact; filter keeps the right bits, but its cardinality counter is wrong when the set extends beyond the filter (C20_filter_ones_refuted)."
  },
  {
   "property": "C21",
   "status": "partial",
   "theorems": [
    "C21_batchSet_partial",
    "C21_batchSet_empty_partial",
    "C21_keeps_others_refuted",
    "C21_count_refuted",
    "C21_aligned_end_undefined"
   ],
   "note": "batchSet sets the requested range, but it overwrites neighbouring bits and the count, and is undefined for an aligned end of the array; the full claim is refuted."
  },
  {
   "property": "C22",
   "status": "proved",
   "theorems": [
    "C22_iteration",
    "C22_decrement"
   ],
   "note": "Iteration visits the set indices in increasing order, each once; the splitting of ranges covers them."
  },
  {
   "property": "C23",
   "status": "proved",
   "theorems": [
    "C23_safe",
    "C23_linearizable",
    "C23_ones",
    "C23_balance",
    "C23_one_winner",
    "C23_terminates",
    "C23_progress"
   ],
   "note": "All interleavings of any number of threads; sequentially consistent atomics. Also: every execution ends."
  },
  {
   "property": "C24",
   "status": "proved",
   "theorems": [
    "C24_at",
    "C24_unique",
    "C24_write",
    "C24_contains",
    "C24_addBlock",
    "C24_merge",
    "C24_exact_size",
    "C24_bounds",
    "C24_absent_undefined",
    "C24_empty_block_refuted"
   ],
   "note": "at/write/contains for every hint, addBlock, merge, bounds, exact size; at() of an absent id in a gap is undefined; empty blocks break the search (refuted)"
  },
  {
   "property": "C25",
   "status": "proved",
   "theorems": [
    "C25_iteration",
    "C25_decrement",
    "C25_decrement_end",
    "C25_decrement_first_refuted",
    "C25_empty_block_refuted"
   ],
   "note": "iteration and all split trees visit the live ids once in order, for non-empty blocks; operator-- too; empty blocks are undefined behaviour"
  },
  {
   "property": "C26",
   "status": "proved",
   "theorems": [
    "C26_sort_with_data",
    "C26_sort",
    "C26_large_refuted"
   ],
   "note": "up to 32768 elements; beyond (allowed by the static_assert) undefined"
  },
  {
   "property": "C27",
   "status": "proved",
   "theorems": [
    "C27_nextPow2_least",
    "C27_nextPow2_out_of_range_refuted",
    "C27_isPow2",
    "C27_isPowN_refuted",
    "C27_log2_floor",
    "C27_logN_floor",
    "C27_logN_refuted",
    "C27_logN_base1_diverges",
    "C27_popcount32"
   ],
   "note": "isPowN and logN for bases that are not powers of two are refuted"
  },
  {
   "property": "C28",
   "status": "proved",
   "theorems": [
    "C28_sequential",
    "C28_concurrent",
    "C28_double_release_refuted"
   ],
   "note": "for clients that give back only ids they hold, sequential and all interleavings"
  },
  {
   "property": "C29",
   "status": "proved",
   "theorems": [
    "C29_contains",
    "C29_shared",
    "C29_contains_all_any",
    "C29_isfinite",
    "C29_sort_vertices"
   ],
   "note": "vertex queries of sorted simplices, sortVertices, isFinite"
  },
  {
   "property": "C30",
   "status": "partial",
   "theorems": [
    "C30_vertex_set",
    "C30_shared_face",
    "C30_equal_vertices",
    "C30_defined",
    "C30_equality_refuted",
    "C30_equal_neighbors_refuted"
   ],
   "note": "proved for every value of the undefined shift; operator== is not transitive, equalNeighbors is inverted, and ids divisible by 32 reach an undefined shift (refuted)"
  },
  {
   "property": "C31",
   "status": "proved",
   "theorems": [
    "C31_contains_point",
    "C31_contains_box",
    "C31_contains_sphere",
    "C31_intersects_sphere",
    "C31_split",
    "C31_split_border",
    "C31_minus",
    "C31_minus_upper"
   ],
   "note": "Over exact reals; box containment of points, boxes and spheres and box/sphere intersection are exact; splitBox and operator- cut a box at a plane."
  },
  {
   "property": "C32",
   "status": "partial",
   "theorems": [
    "C32_circumsphere_2d",
    "C32_circumsphere_3d",
    "C32_circumsphere_order_2d",
    "C32_circumsphere_order_3d",
    "C32_in_sphere_2d_partial",
    "C32_in_sphere_3d_partial",
    "C32_in_sphere_order_2d",
    "C32_in_sphere_order_3d",
    "C32_in_sphere_strict_refuted",
    "C32_degenerate"
   ],
   "note": "Circumsphere exists, is unique and independent of vertex order; inSphere is exactly the closed ball (in 2d and 3d), given sign-exact predicates. The strict form is refuted: vertices and boundary points count as inside, and for degenerate simplices every point does."
  },
  {
   "property": "C33",
   "status": "proved",
   "theorems": [
    "C33_keep"
   ],
   "note": "For any dimension and number of partitions."
  },
  {
   "property": "C34",
   "status": "partial",
   "theorems": [
    "C34_d_way_partial",
    "C34_one_dim_partial",
    "C34_cycle_partial",
    "C34_extend_partial",
    "C34_lookup",
    "C34_contains_simplex",
    "C34_one_dim_lookup_refuted",
    "C34_cycle_full_refuted",
    "C34_extend_refuted",
    "C34_empty_refuted"
   ],
   "note": "All four partitioners, every point set and (Cycle, Extend) every schedule: exactly one part per finite point with bounds containing it, infinite points in all parts unless ignored, nothing else; the parallel loops are safe, cannot run forever or get stuck. Lookups return when the tables cannot be full; refuted otherwise (few ids with ignoreInfinite, coinciding points, no ids)."
  },
  {
   "property": "C35",
   "status": "partial",
   "theorems": [
    "C35_stats_partial",
    "C35_schedule",
    "C35_covers",
    "C35_maximum_refuted"
   ],
   "note": "Minimum exact, midpoint exact, result independent of the split; maximum exact unless every coordinate is below numeric_limits::min(), where the claim is refuted."
  },
  {
   "property": "C36",
   "status": "proved",
   "theorems": [
    "C36_in_cell",
    "C36_cells_overlap",
    "C36_center",
    "C36_index",
    "C36_intersects"
   ],
   "note": "Cells contain their points, are disjoint up to the border, the centre maps back, intersectsWith is exact."
  },
  {
   "property": "C37",
   "status": "proved",
   "theorems": [
    "C37_distance",
    "C37_zero",
    "C37_boundary",
    "C37_bounding"
   ],
   "note": "vecToBox and vecToBoxBoundary give the distance to the box and to its border; makeBoundingBox is the smallest box."
  },
  {
   "property": "C38",
   "status": "partial",
   "theorems": [
    "C38_grid_partial",
    "C38_points_partial",
    "C38_grid_refuted",
    "C38_nested_refuted"
   ],
   "note": "Exact for grid cells that reach into the bounds, and for cells of points none of which lies both on the upper bound and on a grid line. Refuted in general: cells on the upper bound are dropped; inserting a box inside another writes out of bounds."
  },
  {
   "property": "C39",
   "status": "proved",
   "theorems": [
    "C39_flatten",
    "C39_collect",
    "C39_to_old",
    "C39_collect_full_refuted",
    "C39_to_old_refuted"
   ],
   "note": "The small-table hypothesis (allocation possible) as everywhere. Lookups in a collected set of fewer than three ids can run forever (refuted)."
  },
  {
   "property": "C40",
   "status": "partial",
   "theorems": [
    "C40_partial",
    "C40_index",
    "C40_returns",
    "C40_zero_refuted",
    "C40_flat_refuted",
    "C40_few_refuted",
    "C40_round_refuted"
   ],
   "note": "If it returns, the leaves are as stated for any rounding (C40_partial); it returns in exact arithmetic for groups that are large enough and not flat (C40_returns, C40_index). In general false: 0 parts, flat groups, groups smaller than their parts and minima rounded up to float. Missing: inserts lost in growing tables."
  },
  {
   "property": "C41",
   "status": "partial",
   "theorems": [
    "C41_result",
    "C41_safe",
    "C41_ends",
    "C41_mark_wrap_refuted"
   ],
   "note": "All interleavings of all getEdge calls over shared ideal sets: result exact, safe, terminating, never stuck, provided the triangulation mark is at most 253 and neighbor ids refer to stored simplices. Refuted for mark 254 (8-bit wrap). The two sets are ideal: for the growing tables used see C18 (an insert overlapping a growth can be lost)."
  },
  {
   "property": "C42",
   "status": "proved",
   "theorems": [
    "C42_content",
    "C42_inserted",
    "C42_hull",
    "C42_table",
    "C42_update",
    "C42_filter_returns",
    "C42_table_safe",
    "C42_loop_safe",
    "C42_loop_ends"
   ],
   "note": "For every schedule of filter, face table, loop over the edge triangulation: content, inserted list, hull, face table of the merged triangulation; steps defined and ending; with the neighbor update (C43) mutual neighbors. Id sets and the face multimap are ideal here (their own theorems: C01-C18)."
  },
  {
   "property": "C43",
   "status": "partial",
   "theorems": [
    "C43_result",
    "C43_mutual",
    "C43_terminates",
    "C43_safe_partial",
    "C43_exclusive_safe",
    "C43_safe_refuted",
    "C43_mark_wrap_refuted",
    "C43_table",
    "C43_table_safe",
    "C43_table_ends",
    "C43_table_once_refuted",
    "C43_table_wrap_refuted"
   ],
   "note": "Result, mutuality, termination for every schedule; face table content. Safety holds if no simplex is worked on by two tasks at once and is refuted otherwise; the face table is an ideal multimap; marks must not wrap (refuted at 254)."
  },
  {
   "property": "C44",
   "status": "partial",
   "theorems": [
    "C44_cross",
    "C44_cross_same",
    "C44_verify",
    "C44_verify_accepts_partial",
    "C44_cross_missing_refuted",
    "C44_cross_neighbors_refuted",
    "C44_cross_deleted_refuted",
    "C44_verify_neighbors_refuted",
    "C44_verify_delaunay_refuted",
    "C44_verify_zero_refuted",
    "C44_verify_ids_refuted"
   ],
   "note": "crossCheck: exact characterisation for all triangulations without duplicates (C44_cross), and with right neighbor entries it decides equality (C44_cross_same). verify: exact characterisation of valid and of the report lists (C44_verify); right Delaunay triangulations are accepted (C44_verify_accepts_partial). Refuted: missing list incomplete; wrong or deleted neighbors accepted by crossCheck; verify accepts neighbor entries that share no face hash, checks spheres only for listed neighbors, rejects triangulations without pointIds unless infinite points are used, misses surplus points if all points are used."
  },
  {
   "property": "C45",
   "status": "proved",
   "theorems": [
    "C45_finite_infinite",
    "C45_contains",
    "C45_access",
    "C45_range",
    "C45_make_ids",
    "C45_equality"
   ],
   "note": "ids of points, makePointIds, dPoints::contains, range, operator==, operator[]"
  },
  {
   "property": "C46",
   "status": "partial",
   "theorems": [
    "C46_build_tree",
    "C46_recursion",
    "C46_threads",
    "C46_d_way_splits",
    "C46_simple",
    "C46_load_balanced",
    "C46_load_balanced_refuted",
    "C46_build_proper",
    "C46_traces",
    "C46_base_cases",
    "C46_all_threads"
   ],
   "note": "C46_base_cases, C46_all_threads: every run of DCTriangulator with each of the four splitters, any schedule, any answer of CGAL that meets its contract, on different points with a positive extent in each dimension (C71_runs: such runs exist). C46_recursion: any splitter with the behaviour of C46_d_way_splits, points may coincide. The trees of the load balanced recursion: C46_build_tree, C46_load_balanced. Missing: coinciding points with the other splitters; ExtendPartitioner fails there (C34_extend_refuted)."
  },
  {
   "property": "C47",
   "status": "proved",
   "theorems": [
    "C47_sequential",
    "C47_parallel",
    "C47_reproducible",
    "C47_symmetric"
   ],
   "note": "Sequential, parallel (every interleaving of insertions and every order of assignment; ideal growing map) and REPRODUCIBLE versions; node and edge counts below 2^31; std::sort by contract."
  },
  {
   "property": "C48",
   "status": "partial",
   "theorems": [
    "C48_uniform",
    "C48_normal",
    "C48_ellipsoid",
    "C48_ellipsoid_returns",
    "C48_skew_partial",
    "C48_skew_refuted",
    "C48_bubble_partial",
    "C48_bubble_refuted",
    "C48_unbound_refuted",
    "C48_unbound_partial",
    "C48_unbound_outside_refuted",
    "C48_unbound_index_refuted",
    "C48_malicious_refuted",
    "C48_malicious_partial",
    "C48_malicious_index_refuted",
    "C48_malicious_coincide_refuted",
    "C48_patch_partial",
    "C48_patch_refuted"
   ],
   "note": "Proved: uniform, normal, ellipsoid generators fill 1..n inside the bounds (normal if the rejection loop ends); skew line for even n; bubble if 2^D divides n; patch bubbles while the normal factor is in 0..2; unbound/malicious only for ids 0..n-1. Refuted: skew line odd n, bubble otherwise, unbound and malicious bubbles never write point n, may index behind the last center (float rounding), unbound points may leave the bounds, malicious points of the first bubble coincide, patch factor 3 writes behind the end."
  },
  {
   "property": "C49",
   "status": "partial",
   "theorems": [
    "C49_walk",
    "C49_plane_partial",
    "C49_space_partial",
    "C49_nearest_refuted",
    "C49_stored_refuted",
    "C49_deleted_refuted"
   ],
   "note": "Proved for every stored triangulation, query point, hint and priority queue: the search ends, visits each simplex at most once and only reachable ones; if a reachable simplex contains the point the id stored in such a one is returned, else all reachable ones were visited and the one entered over the least face distance is returned (plane and space, exact coordinates). Refuted: the start simplex is never returned for outside points (nearest one missed); with a single simplex the result is dPoint::cINF, no simplex id; starting at a deleted cell returns cINF."
  },
  {
   "property": "C50",
   "status": "proved",
   "theorems": [
    "C50_merge",
    "C50_empty_refuted"
   ],
   "note": "For a non-empty union; the merge of two empty sets yields a table without cells (C50_empty_refuted)."
  },
  {
   "property": "C51",
   "status": "partial",
   "theorems": [
    "C51_load",
    "C51_load_refuted"
   ],
   "note": "holds when the target already has as many blocks; a fresh array has one block, so loading two or more dereferences a null pointer (refuted)"
  },
  {
   "property": "C52",
   "status": "proved",
   "theorems": [
    "C52_ranges",
    "C52_distinct"
   ],
   "note": "any order of the atomic fetch_add, as long as 64-bit ids do not wrap"
  },
  {
   "property": "C53",
   "status": "proved",
   "theorems": [
    "C53_in_simplex_2d",
    "C53_in_simplex_3d"
   ],
   "note": "2d and 3d, exact arithmetic."
  },
  {
   "property": "C54",
   "status": "partial",
   "theorems": [
    "C54_distance_partial",
    "C54_distance_refuted"
   ],
   "note": "The value is the distance to the line divided by the face's length; refuted as squared distance, even its order is wrong."
  },
  {
   "property": "C55",
   "status": "partial",
   "theorems": [
    "C55_exact",
    "C55_enclosed_partial",
    "C55_enclosed_refuted"
   ],
   "note": "Exact criterion for a point to be enclosed (C55_exact), holds for inputs not further from the origin than 200 times their extent (C55_enclosed_partial); false for inputs far from the origin (C55_enclosed_refuted)."
  },
  {
   "property": "C56",
   "status": "partial",
   "theorems": [
    "C56_words",
    "C56_same",
    "C56_differ_refuted"
   ],
   "note": "Same simplices give the same fingerprint (C56_same, C56_words); different ones may collide (C56_differ_refuted)."
  },
  {
   "property": "C57",
   "status": "proved",
   "theorems": [
    "C57_nearest_vertex"
   ],
   "note": "Every simplex whose vertices are points; exact real coordinates. Sentinel case (all distances at least the largest number) stated."
  },
  {
   "property": "C58",
   "status": "partial",
   "theorems": [
    "C58_range",
    "C58_monotone",
    "C58_ends_partial",
    "C58_squared_inverted_refuted",
    "C58_inverted_refuted"
   ],
   "note": "Exact real arithmetic. Range 1..99 and monotonicity hold; the ends differ by at least 49 if the function spans at most 98. Refuted for two of the four offered functions: squared-inverted and inverted give every edge weight 1."
  },
  {
   "property": "C59",
   "status": "partial",
   "theorems": [
    "C59_refuted",
    "C59_unbound",
    "C59_malicious",
    "C59_patch"
   ],
   "note": "Refuted for the five generators of Generator.h (std::bind copies the engine, so two calls give identical points). Proved for the other three: the unbound bubble generator advances the engine by D(k+n) numbers, malicious and patch bubbles by at least D for each point (patch: also D for each centre and one for each bubble but the last)."
  },
  {
   "property": "C60",
   "status": "partial",
   "theorems": [
    "C60_ids_partial",
    "C60_few_refuted",
    "C60_boxes_partial",
    "C60_calm_partial",
    "C60_race_refuted",
    "C60_empty_refuted",
    "C60_bounds_partial",
    "C60_grid_partial",
    "C60_grid_refuted",
    "C60_accurate_partial"
   ],
   "note": "Id sets, termination and safety of the parallel loops and soundness of the checkers proved for schedules in which no flag of the packed vector<bool> is lost; lost flags (data race), partitions without points, fewer ids than partitions and points on the upper border and a grid line refute the full statement."
  },
  {
   "property": "C61",
   "status": "partial",
   "theorems": [
    "C61_bounds_partial",
    "C61_empty_refuted",
    "C61_center_partial",
    "C61_center_refuted",
    "C61_nearest",
    "C61_divides"
   ],
   "note": "Bounds assignment proved when each partition has a sample; a partition without samples leaves an uninitialised box that every assignment reads (refuted). Centres are the sum divided by n+1 (the count is increased before it is used), so the mean reading is refuted. Nearest sample proved for a search that returns a nearest sample."
  },
  {
   "property": "C62",
   "status": "partial",
   "theorems": [
    "C62_tree_partial",
    "C62_sides",
    "C62_zero_refuted",
    "C62_single_refuted"
   ],
   "note": "Proved for two or more ids: shape, division, sides of the plane, and (for non-zero normal vectors, exact arithmetic) soundness of all checkers. Refuted: a zero vector from the decomposition sends all points right and its checkers deny every sphere; a single id never returns."
  },
  {
   "property": "C63",
   "status": "partial",
   "theorems": [
    "C63_tree",
    "C63_median",
    "C63_border_refuted"
   ],
   "note": "Division, depth, cutoff, boxes, checkers and the median proved for all samplings and sorts. The choice of the dimension is refuted: the border length is overwritten instead of summed, so only the last step counts."
  },
  {
   "property": "C64",
   "status": "partial",
   "theorems": [
    "C64_tree_partial",
    "C64_alive_partial",
    "C64_dangling_refuted"
   ],
   "note": "Division, depth and cutoff proved for all assigners. The root of a split tree has no checker. With the accurate grid maker every checker at depth two or more keeps the address of an id set owned by a finished call (refuted); with at most two partitions none does."
  },
  {
   "property": "C65",
   "status": "proved",
   "theorems": [
    "C65_base"
   ],
   "note": "Every dimension up to 30. Exact real arithmetic; CGAL's result is an oracle with the contract cgal_ok (ties broken consistently)."
  },
  {
   "property": "C66",
   "status": "proved",
   "theorems": [
    "C66_step"
   ],
   "note": "Every dimension up to 30, all schedules, from the models of getEdge, mergeTriangulation and updateNeighbors. Marks must not wrap (fewer than 42 levels)."
  },
  {
   "property": "C67",
   "status": "proved",
   "theorems": [
    "C67_triangulate"
   ],
   "note": "From the constructor through all splitters and the recursion, D = 2 and 3, depth up to 42. Exact real arithmetic; CGAL's result is an oracle with the contract cgal_ok (ties broken consistently)."
  },
  {
   "property": "C68",
   "status": "proved",
   "theorems": [
    "C68_mesh"
   ],
   "note": "Same setting as C67; no mention of how ties are broken. Exact real arithmetic; CGAL's result is an oracle with the contract cgal_ok (ties broken consistently)."
  },
  {
   "property": "C69",
   "status": "partial",
   "theorems": [
    "C69_hull_partial",
    "C69_hull_refuted"
   ],
   "note": "Finite simplices are Delaunay for the input, and every simplex without ties whose circumsphere has the corners outside is there (C69_hull_partial). Covering the hull is false: corners are only 200 extents away (C69_hull_refuted)."
  },
  {
   "property": "C70",
   "status": "proved",
   "theorems": [
    "C70_split",
    "C70_many"
   ],
   "note": "For every set with a finite point; ExtendPartitioner needs two to be defined (C70_many: any set of more than 500 points)."
  },
  {
   "property": "C71",
   "status": "proved",
   "theorems": [
    "C71_ctor",
    "C71_runs"
   ],
   "note": "The constructor returns; an execution with ids drawn in order exists. Exact real arithmetic; CGAL's result is an oracle with the contract cgal_ok (ties broken consistently)."
  },
  {
   "property": "C72",
   "status": "proved",
   "theorems": [
    "C72_load_balanced",
    "C72_runs"
   ],
   "note": "Hypotheses: the contract of the partitioner (tree_ok of LbSpec), of CGAL, and heights that break ties; trees whose leaves hold fewer than 2^61 entries."
  },
  {
   "property": "C73",
   "status": "partial",
   "theorems": [
    "C73_old_partial",
    "C73_old_mesh"
   ],
   "note": "C73_old_partial: the contract, if every node with several children has a finite point below it; C73_old_mesh: the mesh, where this is so because there is one level, the cutoff is not exceeded, or the splitter is ExtendPartitioner. Missing: nodes without finite points, which are split too if their parent is larger than the cutoff."
  },
  {
   "property": "C74",
   "status": "proved",
   "theorems": [
    "C74_kway",
    "C74_mesh"
   ],
   "note": "Whatever the rounding (monotone, at most a factor of two off, exact for the coordinates): leaves separated along axes, boxes cover, first dimension fills two leaves; then C72. When the splitter returns is C40; inserts lost in growing tables are left out."
  },
  {
   "property": "C75",
   "status": "proved",
   "theorems": [
    "C75_center",
    "C75_mesh",
    "C75_returns",
    "C75_empty_refuted"
   ],
   "note": "For schedules in which no two threads are between reading and writing a word of the flags; C60_race_refuted shows the others lose points. Sampling is any list of positions and partitions. C75_empty_refuted: an empty cell is undefined behaviour; its example takes three input points as samples."
  },
  {
   "property": "C76",
   "status": "partial",
   "theorems": [
    "C76_nested_refuted",
    "C76_no_mesh_refuted"
   ],
   "note": "False of the model: C76_nested_refuted gives four points and a sampling for which every run, whatever the schedule, bounds, order of the ids and answers of CGAL, returns a triangle with an input point inside of its circumcircle; C76_ex shows that such runs exist."
  },
  {
   "property": "C77",
   "status": "partial",
   "theorems": [
    "C77_nested_refuted"
   ],
   "note": "False of the model: C77_nested_refuted, with the points and sampling of C76, for every search that finds a nearest sample; C77_near and C77_ex show that such a search and such runs exist."
  },
  {
   "property": "C78",
   "status": "partial",
   "theorems": [
    "C78_hyper_partial",
    "C78_mesh_partial",
    "C78_zero_refuted",
    "C78_centred_refuted"
   ],
   "note": "Proved for trees in which every split node has a finite point and every plane has input points or corners on both sides, any sampler and decomposition; missing: nodes without finite points. False without a normal: C78_zero_refuted for every point set, C78_centred_refuted with a least squares decomposition."
  },
  {
   "property": "C79",
   "status": "proved",
   "theorems": [
    "C79_boxes",
    "C79_mesh"
   ],
   "note": "Samplers that return finite points of the set they are given (Sampler.h:135-175); cutoff above 2^D; bounds within the corners."
  },
  {
   "property": "C80",
   "status": "proved",
   "theorems": [
    "C80_flat",
    "C80_mesh",
    "C80_old_uniform"
   ],
   "note": "The contract (tree_ok) is kept by flatten for every uniform tree; C80_old_uniform and bin_uniform show which partitioners give uniform trees."
  },
  {
   "property": "C81",
   "status": "partial",
   "theorems": [
    "C81_small_mesh",
    "C81_null_refuted"
   ],
   "note": "Proved when the set is not split; refuted whenever it is: null dereference at the root."
  },
  {
   "property": "C82",
   "status": "proved",
   "theorems": [
    "C82_check",
    "C82_dc",
    "C82_lb",
    "C82_accepts_refuted"
   ],
   "note": "As stated: any two correct triangulations (C82_check), DCTriangulator with a reference run (C82_dc), load balanced (C82_lb). That correct results are always accepted is false (C82_accepts_refuted). Predicates are sign exact by hypothesis; p_off = 0 as for points from the generators."
  },
  {
   "property": "C83",
   "status": "proved",
   "theorems": [
    "C83_agree",
    "C83_any"
   ],
   "note": "For results of the three triangulators (CGAL alone, DCTriangulator, load balanced) under the hypotheses of C65, C67 and C72."
  },
  {
   "property": "C84",
   "status": "proved",
   "theorems": [
    "C84_dc",
    "C84_lb",
    "C84_number_refuted"
   ],
   "note": "What is reported is the number of ids reserved; that it were the number of simplices is refuted."
  },
  {
   "property": "C85",
   "status": "proved",
   "theorems": [
    "C85_stage",
    "C85_constants",
    "C85_ieee"
   ],
   "note": "First stage and constants; C85_ieee includes underflow. Overflow is not modelled. The _adapt functions are not modelled: there a sign exact result remains trusted."
  },
  {
   "property": "C86",
   "status": "partial",
   "theorems": [
    "C86_all_points_refuted"
   ],
   "note": "Refuted by underflow (C86_all_points_refuted); on a grid that is coarse enough the first stage is right (C85_ieee)."
  },
  {
   "property": "C87",
   "status": "partial",
   "theorems": [
    "C87_pure_refuted"
   ],
   "note": "False of the code: C87_pure_refuted shows that the result is empty, one simplex is reported, and the check always rejects."
  },
  {
   "property": "C88",
   "status": "partial",
   "theorems": [
    "C88_round_trip",
    "C88_plain",
    "C88_equal",
    "C88_started_refuted",
    "C88_empty_refuted"
   ],
   "note": "Proved for every run whose names and values can be told from the separators (C88_round_trip; C88_plain: with the default ones, no blank, no colon, no empty value), and equality of what is read while the run has not started (C88_equal). Refuted: started runs are not equal, an empty value swallows the rest. Measurements (printMeas) are not modelled."
  },
  {
   "property": "C89",
   "status": "partial",
   "theorems": [
    "C89_same_partial",
    "C89_symmetric_refuted"
   ],
   "note": "Proved for runs that have the same ignored traits; refuted in general: the numbers of all traits are compared, so == is not symmetric and holds of different experiments."
  },
  {
   "property": "C90",
   "status": "partial",
   "theorems": [
    "C90_runs",
    "C90_visit",
    "C90_read_back",
    "C90_overflow_refuted",
    "C90_zero_points_refuted",
    "C90_zero_threads_refuted"
   ],
   "note": "Proved for the default minN = 10, maxN below 4000000000 and at least one thread: ends, each experiment asked for exactly once (C90_runs); order of the runs (C90_visit); reading back (C90_read_back). Refuted: minN = 0 and minThreads = 0 never end, maxN from 4000000000 on is undefined. Other values of minN not covered. log10 and pow are taken to be right."
  },
  {
   "property": "C91",
   "status": "partial",
   "theorems": [
    "C91_numbers",
    "C91_words_refuted",
    "C91_decimals_refuted"
   ],
   "note": "Numbers of type long are stored as such (C91_numbers). Refuted: a letter before digits throws, decimals with a 0 in the second place are stored as text."
  },
  {
   "property": "C92",
   "status": "partial",
   "theorems": [
    "C92_load_partial",
    "C92_tight_refuted",
    "C92_short_refuted",
    "C92_dump_refuted"
   ],
   "note": "The points are loaded in order and the box contains them, is tight below, and tight above when some coordinate is at least numeric_limits::min() (C92_load_partial). Otherwise not tight; short lines are undefined; a dump has one point more."
  },
  {
   "property": "C93",
   "status": "proved",
   "theorems": [
    "C93_monitor"
   ],
   "note": "Every interleaving: mutual exclusion, at most five steps per call, some thread can go on until all calls are made, then sum (modulo 2^64) and list are exact."
  },
  {
   "property": "C94",
   "status": "partial",
   "theorems": [
    "C94_counter_partial",
    "C94_calm",
    "C94_lost_refuted"
   ],
   "note": "Never more than the sum, exact if calls do not overlap; refuted in general: whenever two threads count, some run loses an increment for good."
  },
  {
   "property": "C95",
   "status": "partial",
   "theorems": [
    "C95_avg_partial",
    "C95_overflow_refuted"
   ],
   "note": "Rounded down and between least and greatest if the sum is below 2^64; refuted otherwise."
  },
  {
   "property": "C96",
   "status": "partial",
   "theorems": [
    "C96_stored",
    "C96_live",
    "C96_silent",
    "C96_level_refuted"
   ],
   "note": "Proved for every constant verbosity (C96_stored, C96_live, C96_silent); refuted for a verbosity raised between INDENT and DEDENT."
  },
  {
   "property": "C97",
   "status": "partial",
   "theorems": [
    "C97_ieee",
    "C97_two_sum",
    "C97_fast_two_sum",
    "C97_value_partial",
    "C97_bounds_refuted"
   ],
   "note": "Exact for IEEE rounding to nearest of any precision, without overflow, for arrays longer than their expansions (C97_ieee, from C97_two_sum and C97_fast_two_sum; C97_value_partial for any error free arithmetic). Refuted: with arrays just as long, as in line 1330, elements behind the end are read, whatever the values."
  },
  {
   "property": "C98",
   "status": "partial",
   "theorems": [
    "C98_grid",
    "C98_exact_diffs",
    "C98_equal",
    "C98_two_diff",
    "C98_two_two_diff",
    "C98_terms_partial",
    "C98_equal_refuted"
   ],
   "note": "Points with integer coordinates up to 2^24 and doubles: the whole test returns the determinant itself. In general: Two_Diff and Two_Two_Diff are error free; the expansions of all stages add up to the determinant provided the products are error free; with exact differences the test returns after the second stage (zero for equal points); equal points with an inexact difference lead to reads behind the arrays. Missing: Two_Product error free in general, the error bounds of the middle stages, the sign of the last component."
  }
 ]
}