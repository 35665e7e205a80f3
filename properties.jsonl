{"id": "C01", "title": "LP_Set is a set", "statement": "After any sequence of insert calls with non-zero keys on an LP_Set, contains(k) answers exactly whether k was inserted, insert returns true exactly for the first insertion of a key, and size() is the number of distinct keys.", "quantifier": "every constructor size, every odd hash multiplier, every sequence of inserts and queries, growing sets", "why_tests_cant": "keys collide and wrap depending on a random multiplier; a test sees a few multipliers and orders", "anchors": ["include/datastructures/LP_Set.hxx: LP_Set::insert, contains, count, size, rehash"]}
{"id": "C02", "title": "LP_Set queries return", "statement": "A membership query or insertion on an LP_Set returns (the probe loop ends) whenever at least one cell is free, and on a full table it returns only if the key is present.", "quantifier": "every table state, every key, every hash multiplier", "why_tests_cant": "non-termination cannot be observed by a finite test, and it depends on the fill state", "anchors": ["include/datastructures/LP_Set.hxx: LP_Set::insert, contains"]}
{"id": "C03", "title": "Growing LP_Set keeps a free cell", "statement": "A growing LP_Set with capacity at least two always keeps a free cell after any sequence of insertions, so every later query returns; its capacity is always a power of two and never shrinks on insert.", "quantifier": "every insert sequence and every initial size", "why_tests_cant": "the bound has to hold at every one of unboundedly many growth steps", "anchors": ["include/datastructures/LP_Set.hxx: LP_Set::insert, rehash"]}
{"id": "C04", "title": "LP_Set merge and filter", "statement": "merge(other) makes the set the union of both sets; the filtered forms keep exactly the elements that the filter does (not) contain; size() agrees with the result.", "quantifier": "every pair of sets, every filter set, every hash multiplier", "why_tests_cant": "interplay of two tables with independent capacities and hash multipliers", "anchors": ["include/datastructures/LP_Set.hxx: LP_Set::merge, rehash, filter"]}
{"id": "C05", "title": "LP_Set copy, comparison and serialization", "statement": "A copied or saved-and-loaded LP_Set answers every query like the original; operator== is true exactly for equal element sets, whatever the capacities and hash multipliers.", "quantifier": "every pair of sets", "why_tests_cant": "equality quantifies over all keys and all layouts", "anchors": ["include/datastructures/LP_Set.hxx: LP_Set copy ctor, operator==, save, load"]}
{"id": "C06", "title": "Iteration and range splitting cover each element once", "statement": "Iterating a hash set from begin() to end() yields every element exactly once; splitting range() recursively in any way (any grain size, any split tree) yields sub-ranges that together contain each element exactly once.", "quantifier": "every table content, every tree of splits a scheduler may choose", "why_tests_cant": "TBB chooses the split tree at run time", "anchors": ["include/datastructures/LP_Set.hxx: _detail::iterator, _detail::range_type"]}
{"id": "C07", "title": "LP_Map is a map with last write", "statement": "After any sequence of insert(k,v) with non-zero keys, get(k) returns the last value written for k, 0 if none; insert returns true exactly for new keys; size() is the number of distinct keys.", "quantifier": "every sequence of inserts, every hash multiplier, every initial size >= 1", "why_tests_cant": "collisions, updates and growth interleave arbitrarily", "anchors": ["include/datastructures/LP_Map.hxx: LP_Map::insert, get, rehash, size"]}
{"id": "C08", "title": "LP_Map::contains reports presence", "statement": "contains(k) is true exactly when k was inserted.", "quantifier": "every map content including zero values", "why_tests_cant": "needs every value; a stored zero is misreported", "anchors": ["include/datastructures/LP_Map.hxx: LP_Map::contains"]}
{"id": "C09", "title": "LP_Map and LP_MultiMap lookups return", "statement": "A lookup of an absent key in an LP_Map or LP_MultiMap returns after any sequence of inserts.", "quantifier": "every insert sequence", "why_tests_cant": "non-termination, only at particular fill states", "anchors": ["include/datastructures/LP_Map.hxx: LP_Map::insert, get", "include/datastructures/LP_MultiMap.hxx: LP_MultiMap::insert, get"]}
{"id": "C10", "title": "LP_MultiMap::get returns all values", "statement": "get(k) iterates over exactly the values inserted under k, with multiplicity, and contains(k) is true exactly when there is one.", "quantifier": "every insert sequence, every table layout", "why_tests_cant": "depends on wrap-around of the probe chain", "anchors": ["include/datastructures/LP_MultiMap.hxx: LP_MultiMap::insert, get, contains, filtered_iterator"]}
{"id": "C11", "title": "Concurrent set: one winner per key", "statement": "When any number of threads insert into one Concurrent_LP_Set, each key is stored at most once and at most one insert call per key returns true; if some insert of k returned true or false then k is stored.", "quantifier": "every number of threads, every program, every interleaving of atomic steps", "why_tests_cant": "unboundedly many schedules", "anchors": ["include/datastructures/LP_Set.hxx: Concurrent_LP_Set::insert"]}
{"id": "C12", "title": "Concurrent set: completed inserts stay visible", "statement": "A key whose insert has completed with true or false is found by every later contains call, and contains never reports a key nobody inserted.", "quantifier": "every interleaving of inserts and lookups", "why_tests_cant": "visibility must hold at every point of every schedule", "anchors": ["include/datastructures/LP_Set.hxx: Concurrent_LP_Set::insert, get, contains"]}
{"id": "C13", "title": "Concurrent set: size is exact at rest", "statement": "When no insert is in progress, size() of a Concurrent_LP_Set equals the number of distinct stored keys; while inserts run it never exceeds it.", "quantifier": "every interleaving", "why_tests_cant": "transient states exist only in some schedules", "anchors": ["include/datastructures/LP_Set.hxx: Concurrent_LP_Set::insert, size"]}
{"id": "C14", "title": "Concurrent fixed set: inserts finish", "statement": "In a fixed-capacity Concurrent_LP_Set every insert finishes in a bounded number of its own steps provided the distinct keys do not exceed the capacity (the partitioners' use).", "quantifier": "every schedule, every key set not larger than the capacity", "why_tests_cant": "wait-freedom is a property of all schedules", "anchors": ["include/datastructures/LP_Set.hxx: Concurrent_LP_Set::insert", "src/lib/Partitioner.cpp: CyclePartitioner"]}
{"id": "C15", "title": "Concurrent map insert", "statement": "Concurrent inserts into a Concurrent_LP_Map store each key once, and a lookup at rest returns a value some completed insert of that key wrote.", "quantifier": "every interleaving", "why_tests_cant": "value and key are separate atomics", "anchors": ["include/datastructures/LP_Map.hxx: Concurrent_LP_Map::insert, get"]}
{"id": "C16", "title": "Concurrent map rehash and migrate keep every entry", "statement": "Rehashing or migrating a Concurrent_LP_Map keeps every entry.", "quantifier": "every table content", "why_tests_cant": "the internal insert has no exit and the public one may answer Full", "anchors": ["include/datastructures/LP_Map.hxx: Concurrent_LP_Map::_insert, _migrate, unsafe_rehash"]}
{"id": "C17", "title": "Concurrent multimap keeps every pair", "statement": "Concurrent inserts into a Concurrent_LP_MultiMap that return true store exactly one cell each; at rest get(k) lists exactly the values inserted under k.", "quantifier": "every interleaving", "why_tests_cant": "unboundedly many schedules", "anchors": ["include/datastructures/LP_MultiMap.hxx: Concurrent_LP_MultiMap::insert, get"]}
{"id": "C18", "title": "Growing table: growth keeps every element", "statement": "A growing concurrent hash table used through handles loses no element when the table grows, and all handles see the new table afterwards.", "quantifier": "every schedule of inserting and growing threads", "why_tests_cant": "lost updates need a rare interleaving of insert and migration", "anchors": ["include/datastructures/Growing_LP.hxx: GrowingHashTableHandle::insert, grow, getTable", "include/datastructures/LP_Set.hxx: Concurrent_LP_Set::_migrate"]}
{"id": "C19", "title": "Bit_Set is a set of indices", "statement": "After any sequence of insert/erase on a Bit_Set, contains(i) is true exactly when i was inserted and not erased since, insert/erase return whether they changed the set, ones()/zeros() count exactly, and indices outside the bounds are never contained.", "quantifier": "every bounds, every operation sequence", "why_tests_cant": "all bit positions and word boundaries", "anchors": ["include/datastructures/Bit_Set.hxx: Bit_Set::testAndSet, testAndUnset, isSet, ones"]}
{"id": "C20", "title": "Bit_Set merge, filter and resize", "statement": "merge is set union over the united bounds, filter is set difference, mergeFilter is (A u B) \\ F, resize keeps every element; ones() equals the number of elements afterwards.", "quantifier": "every pair of bit sets with any (overlapping or disjoint) bounds", "why_tests_cant": "bounds of the operands are independent", "anchors": ["include/datastructures/Bit_Set.hxx: Bit_Set::merge, filter, mergeFilter, resize"]}
{"id": "C21", "title": "Bit_Set::batchSet sets a range", "statement": "batchSet(from,to) adds exactly the indices from..to-1 and keeps all others.", "quantifier": "every bounds and every range", "why_tests_cant": "word boundary cases and prior content", "anchors": ["include/datastructures/Bit_Set.hxx: Bit_Set::batchSet"]}
{"id": "C22", "title": "Bit_Set iteration", "statement": "Iterating a Bit_Set yields exactly its elements in increasing order.", "quantifier": "every content", "why_tests_cant": "skipping of empty words depends on content", "anchors": ["include/datastructures/Bit_Set.hxx: bitset_iterator::_advance"]}
{"id": "C23", "title": "Concurrent bit set is linearizable", "statement": "Concurrent testAndSet/testAndUnset calls on a Concurrent_Bit_Set behave as if executed one after the other; exactly one of several concurrent inserts of an index reports success; at rest ones() is the number of set bits.", "quantifier": "every interleaving of any number of threads", "why_tests_cant": "CAS retry loops, unboundedly many schedules", "anchors": ["include/datastructures/Bit_Set.hxx: Concurrent_Bit_Set::testAndSet, testAndUnset"]}
{"id": "C24", "title": "Block array addresses by id", "statement": "In a BlockedArray2 built by addBlock/merge from disjoint blocks, at(i) reaches the cell of i in the unique block holding i whatever the cached hint, contains(i) holds exactly for ids in some block, and cells of different ids do not alias.", "quantifier": "every list of disjoint blocks, every id, every stale hint", "why_tests_cant": "binary search boundaries and hints from other threads", "anchors": ["include/datastructures/BlockedArray2.hxx: BlockedArray2::at, contains, addBlock, merge, _findBlock"]}
{"id": "C25", "title": "Block array iteration and splitting", "statement": "Iterating a blocked simplex array (skipping deleted simplices) and splitting its range visits every live element exactly once.", "quantifier": "every block layout, every set of deleted simplices, every split tree", "why_tests_cant": "gaps between blocks and TBB split decisions", "anchors": ["include/datastructures/BlockedArray2.hxx: block_iterator, filtered_block_iterator", "include/datastructures/LP_Set.hxx: range_type"]}
{"id": "C26", "title": "Insertion sort with data", "statement": "static_insertion_sort(_with_data) leaves the keys in non-decreasing order, is a stable permutation, and moves each datum with its key.", "quantifier": "every array length and content", "why_tests_cant": "all permutations of all lengths", "anchors": ["include/utils/StaticSort.h: static_insertion_sort, static_insertion_sort_with_data"]}
{"id": "C27", "title": "Word utilities", "statement": "nextPow2(x) is the least power of two >= x for 1 <= x <= 2^(w-1); isPow2 recognises exactly the powers of two; log2 is the floor logarithm; popcount counts the one bits.", "quantifier": "every machine word", "why_tests_cant": "2^32 or 2^64 inputs", "anchors": ["include/utils/Misc.h: nextPow2, isPow2, log2, logN, popcount"]}
{"id": "C28", "title": "Id handler never hands out a live id twice", "statement": "Ids returned by getId and not yet released are pairwise different and below maxId(); with several threads the same holds for the concurrent handler.", "quantifier": "every sequence / interleaving of getId and releaseId", "why_tests_cant": "unbounded histories", "anchors": ["include/utils/IndexHandler.h: IndexHandler, Concurrent_IndexHandler"]}
{"id": "C29", "title": "Simplex vertex queries", "statement": "For simplices with sorted distinct vertices contains(p), countSharedVertices, isNeighbor (exactly D shared), containsAll/Any and isFinite agree with the corresponding questions about vertex sets; sortVertices establishes the order and keeps each neighbor opposite its vertex.", "quantifier": "every pair of simplices of every dimension", "why_tests_cant": "all vertex orders", "anchors": ["include/Geometry.h: dSimplex::countSharedVertices, contains, isNeighbor, sortVertices"]}
{"id": "C30", "title": "Fingerprints identify equal faces", "statement": "The fingerprint of a simplex depends only on its vertex set; two simplices sharing a face have equal faceFingerprint values for that face, never zero; equalVertices on sorted simplices is vertex-set equality.", "quantifier": "every vertex assignment", "why_tests_cant": "hash equality must hold for all shared faces, else neighbors are missed", "anchors": ["include/Geometry.h: dSimplex::genFingerprint, faceFingerprint, equalVertices, operator==, equalNeighbors"]}
{"id": "C31", "title": "Box and sphere tests are exact", "statement": "dBox::intersects(sphere) is true exactly if some point of the box lies within the radius of the centre; contains(point/box) are inclusion; contains(sphere) holds exactly if every point of the ball is in the box.", "quantifier": "every box, centre and radius, any dimension", "why_tests_cant": "real-valued inputs", "anchors": ["include/Geometry.h: dBox::contains, intersects"]}
{"id": "C32", "title": "Circumsphere and inSphere", "statement": "circumsphere returns a centre with equal distance (the radius) to all vertices of a non-degenerate simplex; inSphere is strictly-inside of that sphere, independent of the vertex order and orientation.", "quantifier": "every non-degenerate triangle / tetrahedron and every point", "why_tests_cant": "real-valued inputs", "anchors": ["src/lib/Geometry.cpp: GeometryCore::circumsphere, inSphere, inSimplex"]}
{"id": "C33", "title": "Simplices clear of other partitions stay Delaunay", "statement": "If a simplex has an empty circumsphere among its own partition's points and its circumsphere intersects no other partition's bounds, its circumsphere is empty of all points of all partitions (so it may be kept).", "quantifier": "every partitioning with valid bounds, every simplex", "why_tests_cant": "all point sets", "anchors": ["src/lib/DCTriangulator.cpp: getEdge", "include/Geometry.h: dBox::intersects"]}
{"id": "C34", "title": "Partitioners place every point exactly once", "statement": "Each partitioner puts every finite point into exactly one part, whose reported bounds contain it; infinite points go to every part unless they are to be ignored; no other ids appear.", "quantifier": "every point set (including ties on the splitting plane), every dimension, every schedule of the parallel loop", "why_tests_cant": "ties and schedules", "anchors": ["src/lib/Partitioner.cpp: dWayPartitioner, OneDimPartitioner, CyclePartitioner, ExtendPartitioner", "include/Partitioner.h: Partitioning::partition"]}
{"id": "C35", "title": "Point statistics", "statement": "getPointStats reports the exact coordinate-wise minimum and maximum of the finite points, independent of the number of threads and of how the range is split.", "quantifier": "every non-empty point set, every split", "why_tests_cant": "reduction order; sign of coordinates", "anchors": ["include/Partitioner.h: getPointStats, dPointStats"]}
{"id": "C36", "title": "Grid cells tile space", "statement": "Every point lies in the bounds of the cell indexAt returns; boundsOf of different cells overlap at most in their border; the centre of a cell maps back to that cell; intersectsWith is exact.", "quantifier": "every cell width > 0 and every point", "why_tests_cant": "real-valued inputs", "anchors": ["include/load_balancing/Grid.h: indexAt, boundsOf, centerOf, intersectsWith"]}
{"id": "C37", "title": "Distances to boxes", "statement": "vecToBox has length zero exactly for points in the box and its squared length is the squared distance to the box.", "quantifier": "every box and point", "why_tests_cant": "real-valued inputs", "anchors": ["include/load_balancing/BoxUtils.h: vecToBox, vecToLowerQuadrant, vecToCenteredBox, enlargeBoxAroundVector, makeBoundingBox"]}
{"id": "C38", "title": "AABB tree query", "statement": "AABBTree::intersects(sphere) is true exactly if the sphere intersects one of the inserted boxes.", "quantifier": "every sequence of inserted boxes, every sphere", "why_tests_cant": "unbounded tree shapes", "anchors": ["include/datastructures/AABBTree.h: TreeNode::insert, split, intersects"]}
{"id": "C39", "title": "Partition tree flattening", "statement": "flatten/collect and the conversion to a flat partitioning keep the leaves, their order and their point sets; part numbers are consecutive from 0.", "quantifier": "every tree", "why_tests_cant": "arbitrary depth and fan-out", "anchors": ["include/load_balancing/PartitionTree.h: PartitionTree, toOldPartitioning"]}
{"id": "C40", "title": "k-way splitter", "statement": "KWaySplitter::partition returns a tree with the largest power of two of leaves not above the requested count; each finite point is in exactly one leaf and inside the leaf's box, each infinite point in all leaves, and no other id in any; it does so for every point set and partition count.", "quantifier": "every point set and partition count", "why_tests_cant": "ties, flat groups, groups smaller than their number of parts, and the rounding of double extremes to float", "anchors": ["include/load_balancing/kWaySplitter.h: KWaySplitter::partition, generateSplits, partitionRecursively"]}
{"id": "C41", "title": "Edge extraction is schedule independent", "statement": "getEdge collects exactly the simplices reachable from the convex hull through simplices whose circumsphere meets another partition, together with all their vertices and all infinite points, for every order of work-item processing.", "quantifier": "every simplex graph, every order in which the parallel worklist is drained", "why_tests_cant": "unboundedly many schedules", "anchors": ["src/lib/DCTriangulator.cpp: getEdge", "include/LoadBalancedDCTriangulator.tpp: getEdge"]}
{"id": "C42", "title": "Merged triangulation content", "statement": "mergeTriangulation keeps exactly the non-edge simplices of the partial triangulations, and of the edge triangulation exactly those that span several partitions or equal a deleted simplex; deleted and rejected simplices are invisible.", "quantifier": "every set of partial triangulations, edge set and edge triangulation, every schedule", "why_tests_cant": "hash collisions of fingerprints and schedules", "anchors": ["src/lib/DCTriangulator.cpp: mergeTriangulation", "include/Geometry.h: dSimplices::merge, filter, contains"]}
{"id": "C43", "title": "Neighbor update", "statement": "After updateNeighbors each checked simplex has in slot d a live simplex sharing exactly the face opposite vertex d (or infinity if the face table lists none).", "quantifier": "every triangulation and face table, every schedule", "why_tests_cant": "global pointer structure", "anchors": ["src/lib/DCTriangulator.cpp: updateNeighbors, buildWhereUsed"]}
{"id": "C44", "title": "verify and crossCheck decide", "statement": "dSimplices::verify reports valid exactly if no point lies inside a circumsphere, neighbor relations are mutual and complete and there are no duplicates; crossCheck reports valid exactly if both triangulations have the same simplices.", "quantifier": "every triangulation", "why_tests_cant": "all triangulations", "anchors": ["src/lib/Geometry.cpp: dSimplices::verify, crossCheck"]}
{"id": "C45", "title": "Point id sets", "statement": "makePointIds lists each finite point id once and every infinite id once; isFinite/infIndex/contains agree on ids; finite and infinite ids never collide.", "quantifier": "every number of points and every offset", "why_tests_cant": "all ids", "anchors": ["include/utils/MakeIds.h: makePointIds", "include/Geometry.h: dPoint::isFinite, infIndex, dPoints::contains", "include/datastructures/VectorAdapter2.hxx"]}
{"id": "C46", "title": "Divide and conquer recursion", "statement": "The recursive triangulation terminates and hands each point of the input to at least one base case; every leaf has at most the cutoff many points or sits at the depth limit.", "quantifier": "every point set and partitioner", "why_tests_cant": "recursion over arbitrary data", "anchors": ["src/lib/DCTriangulator.cpp: _triangulate, _triangulateBase", "include/load_balancing/OldPartitionerPartitioner.h: buildTree"]}
{"id": "C47", "title": "Sample graph in CSR form", "statement": "The adjacency graph built from a triangulation sample stores for each vertex exactly its neighbors, sorted records, no duplicates, symmetric.", "quantifier": "every triangulation", "why_tests_cant": "counting and prefix sums over arbitrary graphs", "anchors": ["include/load_balancing/sample_partitioner/Sampler.h: sanitizeAdjacencyList, adjacencyListToGraph, makeGraph"]}
{"id": "C48", "title": "Generators fill every point", "statement": "Each point generator writes every point id 1..n, inside the requested bounds, without touching memory outside the point vector or its own tables.", "quantifier": "every n", "why_tests_cant": "n not divisible by the number of bubbles etc.", "anchors": ["include/utils/Generator.h: UniformGenerator, BubbleGenerator, SkewLineGenerator"]}
{"id": "C49", "title": "Nearest simplex search", "statement": "findNearestSimplex returns the simplex containing the point if the walk can reach one, else a reachable simplex; it visits each simplex at most once and ends.", "quantifier": "every neighbor graph", "why_tests_cant": "arbitrary graphs", "anchors": ["include/Geometry.h: dSimplices::findNearestSimplex"]}
{"id": "C50", "title": "Concurrent merge of sets", "statement": "unsafe_merge of two concurrent sets yields the union minus the filter for every schedule of the parallel copy, and the new table is at most half full.", "quantifier": "every pair of tables and every schedule of the parallel loop", "why_tests_cant": "schedules of the copy loop", "anchors": ["include/datastructures/LP_Set.hxx: Concurrent_LP_Set::unsafe_merge, _insert"]}
{"id": "C51", "title": "A saved block array can be loaded", "statement": "Loading a serialized BlockedArray2 into a freshly constructed one gives the same blocks.", "quantifier": "every number of blocks", "why_tests_cant": "the number of blocks depends on the recursion; a test with one block passes", "anchors": ["include/datastructures/BlockedArray2.hxx: BlockedArray2::load, save"]}
{"id": "C52", "title": "Simplex ids of different triangulations differ", "statement": "Triangulations built concurrently reserve id ranges with simplexID.fetch_add; the ranges are disjoint, so no simplex id is used by two triangulations and their blocks can be merged.", "quantifier": "every number, size and order of triangulations", "why_tests_cant": "order of the threads", "anchors": ["src/lib/CGALTriangulator.cpp: _delaunayCgal", "include/Geometry.h: dSimplices::simplexID"]}
{"id": "C53", "title": "Point in simplex", "statement": "inSimplex(p) is true exactly if p is a convex combination of the simplex's vertices.", "quantifier": "every non-degenerate simplex in 2 and 3 dimensions, every point, exact arithmetic", "why_tests_cant": "ranges over all real coordinates; tests sample a few points", "anchors": ["src/lib/Geometry.cpp: GeometryHelper<2>::inSimplex, GeometryHelper<3>::inSimplex", "include/Geometry.h: dSimplex::inSimplex"]}
{"id": "C54", "title": "Distance to a face", "statement": "sqDistanceToFace(p) is the squared distance of p to the face, so that the nearest face can be found by comparing the values.", "quantifier": "every face and point in the plane, exact arithmetic", "why_tests_cant": "ranges over all real coordinates; a value that merely grows with the distance passes sampled tests", "anchors": ["src/lib/Geometry.cpp: GeometryHelper<2>::sqDistanceToFace", "include/Geometry.h: dSimplex::sqDistanceToFace, dSimplices::findNearestSimplex"]}
{"id": "C55", "title": "Infinite points enclose the input", "statement": "After construction of a triangulator every input point lies in the convex hull of the 2^D infinite points added, and the input points are unchanged.", "quantifier": "every input, every dimension, every way the statistics are computed, exact arithmetic", "why_tests_cant": "tests use generators whose points lie near the origin; the claim is about all positions", "anchors": ["src/lib/DCTriangulator.cpp: constructor", "include/LoadBalancedDCTriangulator.tpp: constructor", "include/Partitioner.h: getPointStats"]}
{"id": "C56", "title": "Fingerprint of a triangulation", "statement": "dSimplices::genFingerprint gives the same value for two triangulations with the same simplices, whatever their ids, blocks, deleted cells and order of iteration; different triangulations have different values.", "quantifier": "every two triangulations", "why_tests_cant": "ranges over all triangulations and all ways they are stored; tests compare a few", "anchors": ["src/lib/Geometry.cpp: dSimplices::genFingerprint", "include/Geometry.h: dSimplex::genFingerprint"]}
{"id": "C57", "title": "Nearest vertex of a simplex", "statement": "findNearestVertex returns a vertex of the simplex whose distance to the query point is the least among its vertices.", "quantifier": "every simplex, every point set, every query point", "why_tests_cant": "ties, sentinels and arbitrary coordinates", "anchors": ["include/Geometry.h: dSimplex::findNearestVertex"]}
{"id": "C58", "title": "Edge weights of the sample graph", "statement": "Every edge of the sample graph gets a weight in 1..99; an edge whose weight function value is larger never gets a smaller weight; and the shortest and the longest possible edges get clearly different weights for every weight function offered on the command line.", "quantifier": "every weight function and every edge length", "why_tests_cant": "the scale is truncated to an int, so the range of the function decides silently whether all weights coincide", "anchors": ["include/load_balancing/sample_partitioner/Sampler.h: Mapper, makeGraph", "include/load_balancing/CommandLineInterface.h: createPartitioner"]}
{"id": "C59", "title": "Generators consume the random engine", "statement": "PointGenerator::generate draws its numbers from the engine it is passed by reference, so that the engine has advanced when it returns and repeated calls (DAC_Test's fault search loop) produce different inputs.", "quantifier": "every generator, every engine state, every n", "why_tests_cant": "a test that generates one point set cannot see that the next would be identical; it holds or fails for all engine states at once", "anchors": ["include/utils/Generator.h: _gen of all generators (std::bind(distribution, gen))", "src/exe/DAC_Test.cpp: seq-fault loop", "include/load_balancing/UnboundBubbleGenerator.h: _gen"]}
{"id": "C60", "title": "Partition makers", "statement": "BoundsIntersectionPartitionMaker, GridIntersectionPartitionMaker and AccurateGridIntersectionPartitionMaker return one entry per partition; the ids of entry j are the infinite ids and exactly the finite ids that the assigner puts into j, each once; and the checker of entry j answers yes for every circumsphere whose ball contains a point of entry j.", "quantifier": "every id set, every number of partitions, every assigner, every schedule of the parallel loops, every sphere", "why_tests_cant": "the flags of the boxes share a word between threads, so the result depends on the schedule; the border cases of the grid depend on exact coordinates", "anchors": ["include/load_balancing/BoundsIntersectionChecker.h: BoundsIntersectionPartitionMaker::operator()", "include/load_balancing/GridIntersectionChecker.h: GridIntersectionPartitionMaker::operator()", "include/load_balancing/AccurateGridIntersectionChecker.h: intersects, AccurateGridIntersectionPartitionMaker::operator()"]}
{"id": "C61", "title": "Sample partitioners assign each point to the nearest partition", "statement": "The assigners used by the sample partitioners map every point to a partition index in range: bounds assignment takes a partition whose box around its samples is nearest, centre assignment one whose centre (the mean of its samples) is nearest, and nearest-sample assignment the partition of a sample nearest to the point; with any of them every finite point lands in exactly one partition.", "quantifier": "for all dimensions, numbers of partitions, sample positions, sample partition labels and points", "why_tests_cant": "Which partition wins depends on distances between every point and every partition of an arbitrary sample; a partition that got no sample, and a centre that is slightly off, only show for particular samples and still give a plausible division.", "anchors": ["include/load_balancing/sample_partitioner/BoundsDistancePointAssigningSamplePartitioner.h: makeBoundingBoxes, assigner", "include/load_balancing/sample_partitioner/CenterDistancePointAssigningSamplePartitioner.h: findPartitionCenters, assigner", "include/load_balancing/sample_partitioner/NearestSamplePointAssigningSamplePartitioner.h: assigner"]}
{"id": "C62", "title": "Hyperplane bipartitioner", "statement": "HyperplaneSamplingBipartitioner::partition returns a complete binary tree of depth log2 of the number of partitions whose leaves divide the finite ids (each in exactly one leaf) and hold all infinite ids; a point goes left exactly if it lies on the positive side of the plane computed from the midpoints of the cut edges of the sample; and the checker of every node answers yes for every sphere whose ball contains a point below the node.", "quantifier": "for all dimensions, points, id sets, powers of two, samplings and results of the singular value decomposition, all spheres", "why_tests_cant": "The plane comes from a sample, a graph partitioner and a numerical decomposition; degenerate results (no cut edge, zero normal vector, one point) are rare in tests, and a checker that is wrong for one plane only shows for spheres that straddle it.", "anchors": ["include/load_balancing/sample_partitioner/HyperplaneBipartitioner.h: makePartitioning", "include/load_balancing/HyperplaneIntersectionChecker.h: intersects"]}
{"id": "C63", "title": "Box estimating partitioner", "statement": "BinaryBoxEstimatingSamplePartitioner::partition returns a binary tree of depth at most 10 whose leaves divide the finite ids and hold all infinite ids; a leaf less deep has fewer ids than the cutoff; the boxes of two children are a split of their parent's box at a median of the midpoints of the cut edges, in the dimension in which the border is shortest; and if the bounds hold all points, the box of every node holds the points below it.", "quantifier": "for all dimensions, points, id sets, bounds, cutoffs, samplings and sorts", "why_tests_cant": "Boxes and cuts depend on the sample; points on the cut, cuts outside the box and samples without cut edges all have to keep the division intact at every level of the recursion.", "anchors": ["include/load_balancing/sample_partitioner/BinaryBoxEstimatingSamplePartitioner.h: findPartitionCenterEdges, makePartitionCenterPoints, estimateBoundingBoxes, seperatePointIds, buildTreeRecursively"]}
{"id": "C64", "title": "Nearest sample bipartitioner", "statement": "NearestSamplePointAssigningSampleBipartitioner::partition returns a binary tree of depth at most log2 of the number of partitions whose leaves divide the finite ids and hold all infinite ids; a leaf less deep has no more ids than the base cutoff; every node has a checker, and no checker refers to data that ends with the call.", "quantifier": "for all dimensions, id sets, numbers of partitions, cutoffs and assigners, with every partition maker", "why_tests_cant": "The lifetime of the sets that checkers refer to is invisible to a test that happens to find the old memory intact; the division has to hold for every assigner.", "anchors": ["include/load_balancing/sample_partitioner/NearestSamplePointAssigningSampleBipartitioner.h: makePartitioning", "include/load_balancing/AccurateGridIntersectionChecker.h: AccurateGridIntersectionChecker"]}
{"id": "C65", "title": "Base case: from CGAL's cells to a triangulation", "statement": "If CGAL's finite cells are the Delaunay simplices of the points it got (each once, with different ids below maxId and right neighbors), then CGALTriangulator returns an array of exactly the reserved ids with those simplices, sorted vertices, right neighbor slots, and as convex hull the simplices with an infinite vertex; no access fails.", "quantifier": "for all point sets in the box, all orders of cells, all start ids that do not wrap", "why_tests_cant": "Tests compare against another CGAL run, which shares the conversion code; the pairing of sorted vertices with neighbor slots and the fingerprint must hold for every order of vertices.", "anchors": ["src/lib/CGALTriangulator.cpp: _delaunayCgal"]}
{"id": "C66", "title": "One merge step keeps the Delaunay triangulation", "statement": "Given Delaunay triangulations of the partitions and of the edge points that getEdge collected, mergeTriangulation followed by updateNeighbors gives the Delaunay triangulation of all points, with right neighbors and convex hull.", "quantifier": "for all dimensions, numbers of partitions, point positions (also with ties), all schedules of getEdge, mergeTriangulation and updateNeighbors, all intersection tests that miss no partition", "why_tests_cant": "The claim is about every configuration of points across a border; a test sees one random input and one schedule.", "anchors": ["src/lib/DCTriangulator.cpp: getEdge, mergeTriangulation, updateNeighbors, _triangulate"]}
{"id": "C67", "title": "triangulate returns the Delaunay triangulation", "statement": "DCTriangulator::triangulate on an input without repeated points, with extent in each dimension and not further from the origin than 200 times the extent, returns the Delaunay triangulation of the input and the infinite points, for each of the four splitters, with and without parallel edge triangulation, if CGAL keeps its contract and the id counter does not wrap.", "quantifier": "for all inputs, splitters, recursion depths up to 42, schedules, and ways CGAL breaks ties consistently", "why_tests_cant": "It composes splitting, base case, edge detection, merge and neighbor update through a recursion of any depth; tests run a few random inputs.", "anchors": ["src/lib/DCTriangulator.cpp: DCTriangulator, _triangulate, _triangulateBase", "src/lib/Partitioner.cpp"]}
{"id": "C68", "title": "The result is a mesh", "statement": "Under the same conditions: no simplex of the result has a point inside of its circumsphere; every simplex without ties is there; each input point is a vertex; the simplices cover the box of the infinite points, in which all input points are; two simplices meet in the face of their common vertices or not at all; no simplex is there twice; each neighbor entry names the simplex across the face, or none where the face is on the border.", "quantifier": "for all inputs, splitters, recursion depths up to 42 and schedules", "why_tests_cant": "Coverage and intersection are statements about all points of space and all pairs of simplices.", "anchors": ["src/lib/DCTriangulator.cpp: _triangulate", "include/Geometry.h: dSimplices"]}
{"id": "C69", "title": "The finite simplices fill the convex hull of the input", "statement": "The simplices of the result without infinite vertices are the Delaunay triangulation of the input: they are Delaunay, and they cover the convex hull of the input points.", "quantifier": "for all inputs, splitters, recursion depths and schedules", "why_tests_cant": "Needs the position of every possible circumsphere relative to the infinite points, which are only 200 times the extent away.", "anchors": ["src/lib/DCTriangulator.cpp: DCTriangulator", "src/lib/CGALTriangulator.cpp: _delaunayCgal"]}
{"id": "C70", "title": "The splitters give what the recursion relies on", "statement": "Called for a set with a finite point (two for ExtendPartitioner), as the recursion does for more than 500 points, each splitter returns partitions that divide the finite points, repeat the infinite ones, are told apart by hyperplanes and have boxes with their points; and if all finite points land in one partition, some simplex of its hull still meets the box of another one, so that the edge is not empty.", "quantifier": "for all point sets with a finite point, dimensions up to 8, the splitters d-way, one-dimensional, cyclic and extent, all schedules", "why_tests_cant": "Points on the midplane, equal coordinates in one dimension and splits that leave a partition empty are rare in random tests; the recursion would not end or would lose simplices there.", "anchors": ["src/lib/Partitioner.cpp: partition", "include/Partitioner.h: partition"]}
{"id": "C71", "title": "triangulate returns", "statement": "On such an input the constructor returns, and if CGAL answers each call with at most M ids and the ids of (2^D+1)^depth calls fit the counter, there is an execution of triangulate that ends with a result, with ids drawn one after another from the counter.", "quantifier": "for all inputs, splitters, depths up to 42", "why_tests_cant": "Existence of a result for every input; a failing access or an undefined case would only show on the input that reaches it.", "anchors": ["src/lib/DCTriangulator.cpp: _triangulate", "src/lib/CGALTriangulator.cpp: _delaunayCgal"]}
{"id": "C72", "title": "The load balanced triangulator returns the Delaunay triangulation", "statement": "If the partitioner returns a tree whose nodes divide the points along hyperplanes, with intersection checkers that miss no sphere with a point of their part in it, then LoadBalancing::DCTriangulator::triangulate returns the Delaunay triangulation of the input and the infinite points, which is a mesh of their box; and there is such an execution if CGAL answers and the ids suffice.", "quantifier": "for all inputs, trees up to height 42 with any number of children, intersection checkers, base cases with and without a parallel triangulator, parallel edge triangulation or not, and schedules", "why_tests_cant": "The shape of the tree, the checkers and the schedule vary freely; a test sees one tree built from one random input.", "anchors": ["include/LoadBalancedDCTriangulator.tpp: recursiveTriangulate, _triangulateBase, getEdge, mergeTriangulation", "include/load_balancing/PartitionTree.h", "include/load_balancing/IntersectionChecker.h"]}
{"id": "C73", "title": "OldPartitionerPartitioner gives trees the load balanced triangulator can work on", "statement": "The trees that OldPartitionerPartitioner builds with any of the four splitters divide the points along hyperplanes and have boxes with the points of each part, so that the load balanced triangulator with them returns a mesh.", "quantifier": "for all inputs, splitters, cutoffs, numbers of recursions, bounds and schedules", "why_tests_cant": "Parts without points, all points in one part and ties at the midplane are rare in random inputs.", "anchors": ["include/load_balancing/OldPartitionerPartitioner.h: buildTree", "include/load_balancing/BoundsIntersectionChecker.h: intersects", "src/lib/Partitioner.cpp"]}
{"id": "C74", "title": "Load balanced triangulation with the k-way splitter", "statement": "LoadBalancing::DCTriangulator with a KWaySplitter of up to 2^20 parts: whenever the splitter returns on points whose coordinates are floats, its tree divides the points among as many leaves as the largest power of two within the request, so that hyperplanes separate the leaves, their boxes cover their points and two of them have finite points; therefore every execution of triangulate ends with the Delaunay triangulation of the points and the far corners.", "quantifier": "all point sets in 2D and 3D, numbers of parts, monotone roundings of Precision and float, interleavings, CGAL answers allowed by its contract", "why_tests_cant": "Rounded grid positions, orders of insertion and the reassembly over all point sets cannot be enumerated.", "anchors": ["include/load_balancing/kWaySplitter.h:16-109", "include/LoadBalancedDCTriangulator.tpp:548-695"]}
{"id": "C75", "title": "Load balanced triangulation with cells of the nearest centre", "statement": "LoadBalancing::DCTriangulator with CenterDistancePointAssigningSamplePartitioner and BoundsIntersectionPartitionMaker: if each partition centre is the nearest one of some input point and no two threads write the flags of the boxes at the same time, the tree divides the points along the bisectors of the centres, its boxes cover their points, and every execution of triangulate ends with the Delaunay triangulation of the points and the far corners. If some centre is nearest to no point, a box without initialised corners is copied.", "quantifier": "all point sets in 2D and 3D, samplings, numbers of partitions, orders of the sets, interleavings of the triangulator, CGAL answers allowed by its contract", "why_tests_cant": "Which cells are empty depends on the sampling; all point sets, ties between centres and interleavings cannot be enumerated.", "anchors": ["include/load_balancing/sample_partitioner/CenterDistancePointAssigningSamplePartitioner.h:14-96", "include/load_balancing/BoundsIntersectionChecker.h:28-87", "include/LoadBalancedDCTriangulator.tpp"]}
{"id": "C76", "title": "Load balanced triangulation with partitions of the nearest box", "statement": "LoadBalancing::DCTriangulator with BoundsDistancePointAssigningSamplePartitioner and BoundsIntersectionPartitionMaker gives the Delaunay triangulation of the points. This fails when the box of one partition lies inside a simplex of another one: no circumsphere at the border of the outer partition meets the inner box, so none of its simplices are redone and one with a point inside of its circumsphere stays in the result.", "quantifier": "all point sets in 2D and 3D, samplings, numbers of partitions, interleavings, CGAL answers allowed by its contract; refuted for every interleaving, bounds, cutoff and answer of CGAL on one input of four points", "why_tests_cant": "Unit tests compare few random samplings, where partitions rarely are nested; whether a wrong simplex survives the merge does not depend on the schedule or the tie breaking, which no test can show.", "anchors": ["include/load_balancing/sample_partitioner/BoundsDistancePointAssigningSamplePartitioner.h:14-98", "include/load_balancing/BoundsIntersectionChecker.h:28-87", "include/LoadBalancedDCTriangulator.tpp"]}
{"id": "C77", "title": "Load balanced triangulation with partitions of the nearest sample", "statement": "LoadBalancing::DCTriangulator with NearestSamplePointAssigningSamplePartitioner and BoundsIntersectionPartitionMaker gives the Delaunay triangulation of the points. This fails when the samples of one partition lie inside a simplex of another one, whichever nearest sample the k-d tree finds: the simplex stays in the result though points of the inner partition are inside of its circumsphere.", "quantifier": "all point sets in 2D and 3D, samplings, numbers of partitions, interleavings, answers of the k-d tree and of CGAL allowed by their contracts; refuted for every interleaving, bounds, cutoff and answer on one input of four points", "why_tests_cant": "Whether partitions are nested depends on the sampling and the graph partitioner; that no schedule, bounds or tie breaking rescues the result needs a proof.", "anchors": ["include/load_balancing/sample_partitioner/NearestSamplePointAssigningSamplePartitioner.h:14-113", "include/load_balancing/BoundsIntersectionChecker.h:28-87", "include/LoadBalancedDCTriangulator.tpp"]}
{"id": "C78", "title": "Load balanced triangulation with the hyperplane bipartitioner", "statement": "LoadBalancing::DCTriangulator with HyperplaneBipartitioner gives the Delaunay triangulation of the points, whatever the sampler and the singular value decomposition return. It holds if every node that is split has a finite point and every plane has points (or infinite points) on both sides. It fails if the decomposition gives no normal, as it does for cut edges whose midpoints are centred at the origin and spread out: then the checkers never answer yes and a simplex of infinite points stays in the result.", "quantifier": "all point sets in 2D and 3D, samplers, decompositions, bounds, numbers of partitions, interleavings and answers of CGAL allowed by its contract; refuted for all point sets if the first plane has no normal", "why_tests_cant": "The planes depend on the sample and on a numerical decomposition; that every one with points on both sides is safe, and that one without a normal never is, are statements about all of them.", "anchors": ["include/load_balancing/sample_partitioner/HyperplaneBipartitioner.h:27-155", "include/load_balancing/HyperplaneIntersectionChecker.h:17-21", "include/LoadBalancedDCTriangulator.tpp:548-690"]}
{"id": "C79", "title": "Load balanced triangulation with the binary box estimating partitioner", "statement": "LoadBalancing::DCTriangulator with BinaryBoxEstimatingSamplePartitioner gives the Delaunay triangulation of the points, whichever of the points the sampler picks and however it labels them, if the cutoff is above 2^D (the programs use 500 and 2500) and the bounds hold the points and do not reach beyond the infinite points. The tree has at most ten levels.", "quantifier": "all point sets in 2D and 3D, samplers that draw from the set they are given, sorting functions, cutoffs above 2^D, bounds, interleavings and answers of CGAL allowed by its contract", "why_tests_cant": "The cuts depend on random samples; empty sides, cuts on the border of a box and cuts through points are rare and must all be safe.", "anchors": ["include/load_balancing/sample_partitioner/BinaryBoxEstimatingSamplePartitioner.h:14-150", "include/load_balancing/BoundsIntersectionChecker.h", "include/LoadBalancedDCTriangulator.tpp:548-690"]}
{"id": "C80", "title": "Flattened partition trees", "statement": "FlatPartitioner around a partitioner whose trees the load balanced triangulator can work on (C72) gives such trees again: one level with the same leaves; DCTriangulator with it returns the Delaunay triangulation of the points, a mesh of their box.", "quantifier": "all trees of any shape that divide the points along hyperplanes and whose single leaves have the checker of their node (as those of OldPartitionerPartitioner and of the partitioners that split in two do), point sets in 2D and 3D, schedules and answers of CGAL allowed by its contract", "why_tests_cant": "Flattening makes parts neighbours that were never compared before; that every such pair is separated and that some checker reaches beyond a part that holds all points must hold for every tree.", "anchors": ["include/load_balancing/FlatPartitioner.h:15-23", "include/load_balancing/PartitionTree.h:53-100", "include/LoadBalancedDCTriangulator.tpp:572-695"]}
{"id": "C81", "title": "Load balanced triangulation with the nearest sample bipartitioner", "statement": "LoadBalancing::DCTriangulator with NearestSamplePointAssigningSampleBipartitioner gives the Delaunay triangulation of the points if the set is not split (at most as many ids as the cutoff, or one partition). False otherwise: the root of a tree it has split has no intersection checker, and recursiveTriangulate dereferences it before anything else, whatever the points, samples and options; wrapping it in FlatPartitioner changes nothing.", "quantifier": "all point sets, samples, partition makers, cutoffs, numbers of partitions; refuted for every set that is split", "why_tests_cant": "Small inputs are not split, so tests on them pass; that every larger input fails is a statement about all of them.", "anchors": ["include/load_balancing/sample_partitioner/NearestSamplePointAssigningSampleBipartitioner.h:44-92", "include/LoadBalancedDCTriangulator.tpp:572-582", "include/load_balancing/CommandLineInterface.h:173-176"]}
{"id": "C82", "title": "The programs' own check of a result", "statement": "With verification on, the programs triangulate the points again with CGAL alone, and accept the result of the divide and conquer triangulators if verify and crossCheck accept. For results of correct runs both return, verify finds no duplicates and no wrong neighbors, crossCheck accepts, and the answer is yes exactly if no finite vertex across a facet is on the circumsphere of the simplex. It is yes if no empty circumsphere has a finite point more on it, and no if D + 2 points are on an empty sphere that the infinite points are outside of. So a correct result need not be accepted: the four corners of a square are a case that is rejected in every run.", "quantifier": "all inputs in the plane and in space, all splitters or partition trees, all runs of both triangulations, all orders of the iterations and of the tables", "why_tests_cant": "Random floating point coordinates have no ties, so each test run accepts; that the check is right for all inputs without ties and rejects all runs for inputs with them is about all of them.", "anchors": ["src/exe/DAC_Test.cpp:139-152", "src/lib/Geometry.cpp:758-1137", "src/lib/Geometry.cpp:148-187", "src/lib/Geometry.cpp:351-410"]}
{"id": "C83", "title": "All triangulators give the same triangulation", "statement": "For given points, the results of CGAL alone, of the divide and conquer triangulator and of the load balanced one agree, whatever the splitter or partitioner, the depth, the handling of edges and the schedule: they have the same simplices (by vertices), the same ones in the hull, the same neighbors in each slot, and equally many, if CGAL breaks ties the same way in all calls. If no empty sphere has more than D + 1 of the points on it, they agree however ties are broken.", "quantifier": "all inputs in the plane and in space, all pairs of triangulators, splitters, trees, depths, schedules and ids", "why_tests_cant": "Tests compare a few results on a few point sets; that two runs with any schedules and any partitionings of any points agree needs that each is the one triangulation.", "anchors": ["src/lib/DCTriangulator.cpp:500-610", "include/LoadBalancedDCTriangulator.tpp:572-695", "src/lib/CGALTriangulator.cpp:300-365"]}
{"id": "C84", "title": "The number of simplices that is reported", "statement": "The programs report exact_size() of the result as the number of simplices. That is the number of all ids that were reserved for base cases and edges: at least the number of simplices of the triangulation, and more in every run of the divide and conquer triangulator that splits (depth above 0 and more than 500 points), and of the load balanced one with a tree whose root has several children. So it is not the number of simplices, and depends on the partitioning.", "quantifier": "all inputs in the plane and in space, all splitters, trees, depths, schedules", "why_tests_cant": "The number is only printed and compared with nothing; that deleted simplices are counted in every run that splits is about all runs.", "anchors": ["src/exe/DAC_Test.cpp:135", "src/exe/Benchmark.cpp:96", "include/load_balancing/Experiment.h:73", "include/datastructures/BlockedArray2.hxx:502-509"]}
{"id": "C85", "title": "The first stage of the adaptive predicates", "statement": "If Predicates<2>::orient, Predicates<2>::insphere, Predicates<3>::orient or Predicates<3>::insphere returns without calling its _adapt function, the returned number is positive, negative or zero as the exact determinant is; if it calls _adapt the determinant is at most four times the error bound times the sum of the absolute values of its products. The static constructor finds epsilon = 2^-p, splitter = 2^ceil(p/2)+1 and error bounds without rounding error. With underflow this holds for points whose coordinates are multiples of 2^g, where 5g - 2p is at least the least exponent (double: multiples of 2^-193).", "quantifier": "for all points, all precisions p >= 10, every rounding with relative error epsilon that is monotone and symmetric (in particular to nearest, ties to even)", "why_tests_cant": "The error analysis is about the worst case over all coordinates; inputs for which the filter is off by one unit are not found by sampling.", "anchors": ["src/utils/Predicates.cpp:415-464", "src/utils/Predicates.cpp:1347-1378", "src/utils/Predicates.cpp:2296-2334", "src/utils/Predicates.cpp:3020-3058", "src/utils/Predicates.cpp:3941-4040"]}
{"id": "C86", "title": "The predicates are exact for all finite points", "statement": "For all points with finite double coordinates the result of orient has the sign of the determinant, so that inSphere decides whether a point is in the circumsphere.", "quantifier": "for all points with finite coordinates", "why_tests_cant": "Random points in [0,1] or similar boxes never have products below 2^-1074; the failing inputs are astronomically small.", "anchors": ["src/utils/Predicates.cpp:1347-1378", "src/lib/Geometry.cpp:148-187"]}
{"id": "C87", "title": "The algorithms with CGAL alone", "statement": "The algorithms 'c' and 'm' of DAC_Test (PureCGALTriangulator) return the triangulation of the points, report its number of simplices, and pass the check with --verify.", "quantifier": "for all points, reference triangulations and schedules of the check", "why_tests_cant": "They are used for timing only, with verification off; a test of the returned object on some inputs does not say that it never depends on the points.", "anchors": ["src/lib/CGALTriangulator.cpp:482-504", "src/exe/DAC_Test.cpp:88-97", "src/exe/DAC_Test.cpp:130-152"]}
{"id": "C88", "title": "Experiment runs can be written and read", "statement": "An ExperimentRun that is written by str() and read by the constructor from a string is the same experiment and compares equal, also on another host or with another version of the program.", "quantifier": "for all runs, separators, hosts and versions", "why_tests_cant": "Whether the text can be taken apart depends on every name and value and on how they touch the separators; tests read a few lines.", "anchors": ["src/utils/Timings.cpp:11-62", "include/utils/Timings.h:34-61", "src/exe/Benchmark.cpp:334-345"]}
{"id": "C89", "title": "Comparison of experiment runs", "statement": "operator== of ExperimentRun holds exactly if both describe the same experiment, that is have the same traits but for host, git-rev, start-time, end-time and run-number; it is symmetric.", "quantifier": "for all pairs of runs", "why_tests_cant": "A comparison that is wrong only for certain combinations of ignored and other traits looks right on samples.", "anchors": ["src/utils/Timings.cpp:8-9", "src/utils/Timings.cpp:78-99"]}
{"id": "C90", "title": "The benchmark generates the experiments asked for", "statement": "generateExperimentRuns ends and gives each combination of distribution, number of points (one digit and zeros, up to maxN), algorithm, threads (doubled from minThreads up to maxThreads), occupancy, splitter and parallel options that is asked for exactly once; runExperiments makes each run once in either direction; what gen-only prints can be read back to equal runs.", "quantifier": "for all option values, lists of algorithms, distributions, splitters and occupancies", "why_tests_cant": "The loops depend on option values up to 2^32; ends and omissions for all of them cannot be tried.", "anchors": ["src/exe/Benchmark.cpp:113-118", "src/exe/Benchmark.cpp:134-251", "src/exe/Benchmark.cpp:384-389"]}
{"id": "C91", "title": "Traits are stored with their type", "statement": "DBConnection::save stores a trait that is an integer as that integer, one that is a decimal number as a double and any other as text, and does not throw for any text.", "quantifier": "for all texts, all numbers of type long", "why_tests_cant": "The decision is made by regular expressions on arbitrary text; a character class that contains a range nobody meant is only seen on texts nobody tries.", "anchors": ["include/utils/StringUtils.h:7-17", "src/utils/DBConnection.cpp:114-128"]}
{"id": "C92", "title": "Points from a file", "statement": "dPoints::loadFromFile appends one point per line of the file, with the coordinates written there and in their order, and returns the smallest box that contains them; loading what LB_PointDump wrote gives the points it was made from.", "quantifier": "for all dimensions, all point sets and all vectors they are appended to, all functions that write and read numbers without loss", "why_tests_cant": "Test files have positive coordinates and the right number of fields; the box is only wrong for negative ones, and the additional point of a dump looks like any other.", "anchors": ["include/Geometry.h:255-303", "include/utils/Misc.h:68-85", "src/exe/LB_PointDump.cpp:43-45"]}
{"id": "C93", "title": "The monitor counts every base triangulation", "statement": "When several threads call registerBaseTriangulation and registerSampleTriangulation of a ComprehensiveMonitor, then after all calls numTriangulatedPoints is the sum of all numbers passed and baseTriangulations has every call exactly once; the calls never block each other forever.", "quantifier": "for all numbers of threads, all sequences of calls of each, all interleavings", "why_tests_cant": "A test runs a few schedules; a count outside of the lock shows up in few of them.", "anchors": ["include/load_balancing/monitors/ComprehensiveMonitor.h:11-36"]}
{"id": "C94", "title": "Profiling counters add up", "statement": "After several threads called incCounter of an ExperimentRun, the counter is the sum of all values passed.", "quantifier": "for all numbers of threads, all sequences of calls of each, all interleavings", "why_tests_cant": "Whether increments are lost depends on the schedule, and a lost one changes the counter only a little.", "anchors": ["include/utils/Timings.h:92-94", "include/utils/Timings.h:149-152"]}
{"id": "C95", "title": "Average measurement", "statement": "avgMeasurement returns the average of the measurements rounded down; it lies between the least and the greatest of them.", "quantifier": "for all sequences of 64 bit measurements", "why_tests_cant": "The sum wraps for measurements that no test makes, like sums of memory or nanoseconds.", "anchors": ["src/utils/Timings.cpp:64-75"]}
{"id": "C96", "title": "The log", "statement": "With a stored verbosity nothing is written before printLog, which then writes exactly the messages up to this verbosity, in order and indented as their thread was; printing at a lower verbosity writes what a run with that verbosity would have written; with a live verbosity the same text is written at once and nothing by printLog; SILENT writes nothing; changing the verbosity keeps the indentation right.", "quantifier": "for all sequences of messages and indentations of all threads, all verbosities", "why_tests_cant": "Logs are read by people and not compared; the case of a verbosity changed within an indented part needs a long run.", "anchors": ["include/utils/Logger.h:27-82", "src/utils/Logger.cpp:16-56"]}
{"id": "C97", "title": "Sums of expansions are exact", "statement": "fast_expansion_sum_zeroelim writes an expansion whose components add up exactly to the sum of the two given ones, with at least one and at most elen + flen components, none of them zero unless it is the only one, and reads only elements of the arrays given.", "quantifier": "for all lengths, all expansions with components of rising magnitude (zeros allowed anywhere), all precisions and least exponents of IEEE numbers", "why_tests_cant": "The sums are only needed for nearly degenerate inputs; an element read behind the end of an array does not show in the result.", "anchors": ["src/utils/Predicates.cpp:779-845", "src/utils/Predicates.cpp:166-191", "src/utils/Predicates.cpp:1330-1342"]}
{"id": "C98", "title": "The adaptive orientation test is exact where the filter fails", "statement": "For every three points for which Predicates<2>::orient hands over to orient_adapt, the latter returns, with defined behaviour, a number with the sign of the exact orientation determinant; the expansions it builds add up exactly to that determinant.", "quantifier": "for all points with coordinates in the format, all precisions and least exponents of IEEE numbers (no overflow, products without underflow)", "why_tests_cant": "The last stage runs only for nearly collinear points whose differences are inexact; reading behind an array on the stack does not show in the result.", "anchors": ["src/utils/Predicates.cpp:1268-1345", "src/utils/Predicates.cpp:193-272", "src/utils/Predicates.cpp:1132-1141"]}
