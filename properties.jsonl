{"id": "C01", "title": "Construction stores every point exactly once", "statement": "After constructing a kd_tree, the tree refers to each of the n input points exactly once: the index ranges of its leaves, read left to right, are consecutive, start at 0, end at n, and the stored index sequence is a permutation of 0..n-1.", "quantifier": "every point set (n >= 1, any dimension >= 1, duplicates allowed), every stop condition, splitter rule and start bounds for which construction returns, every behaviour of std::partition / std::nth_element allowed by the C++ standard", "why_tests_cant": "Unit tests build a few random clouds; lost or duplicated indices would depend on particular tie patterns at split values and on the standard library's unspecified element order.", "anchors": ["src/pico_tree/pico_tree/kd_tree.hpp: kd_tree::kd_tree", "src/pico_tree/pico_tree/internal/kd_tree_builder.hpp: build_kd_tree, build_kd_tree_impl::create_node", "src/pico_tree/pico_tree/internal/kd_tree_builder.hpp: splitter_*_max_side"]}
{"id": "C02", "title": "Construction terminates without undefined behaviour (sliding midpoint and median rules)", "statement": "For a non-empty point set and max_leaf_size >= 1 (or any max_leaf_depth), constructing a kd_tree with the sliding midpoint or the median rule always finishes, never reads an uninitialised split dimension, never dereferences an end iterator and never trips an assertion.", "quantifier": "every point set including all-duplicate and collinear ones, every leaf size >= 1 or depth representable in the index type, every conforming std::partition/nth_element", "why_tests_cant": "Termination over all inputs cannot be sampled; degenerate clouds (all points equal, one dimension constant) are the dangerous ones.", "anchors": ["src/pico_tree/pico_tree/internal/kd_tree_builder.hpp: splitter_sliding_midpoint_max_side, splitter_median_max_side, create_node, is_leaf", "src/pico_tree/pico_tree/internal/box.hpp: max_side"]}
{"id": "C03", "title": "max_leaf_size is respected", "statement": "With stop condition max_leaf_size_t(m), m representable in the index type, every leaf range of the tree holds at most m points.", "quantifier": "every point set, every m, all three rules, every execution that returns", "why_tests_cant": "Tests check a handful of sizes on random data.", "anchors": ["src/pico_tree/pico_tree/internal/kd_tree_builder.hpp: max_leaf_size_t, is_leaf, create_node"]}
{"id": "C04", "title": "max_leaf_depth is respected", "statement": "With stop condition max_leaf_depth_t(d), no leaf is deeper than d (depth 0 is the root), for all three rules, and construction terminates for all three rules.", "quantifier": "every point set, every depth d representable in the index type, all three rules", "why_tests_cant": "A depth bound over all inputs and rules is a universal claim; tests look at d = 0 and d = 2 on tiny sets.", "anchors": ["src/pico_tree/pico_tree/internal/kd_tree_builder.hpp: max_leaf_depth_t, is_leaf, create_node"]}
{"id": "C05", "title": "Midpoint rule with max_leaf_size terminates", "statement": "Constructing a kd_tree with midpoint_max_side and max_leaf_size_t(m), m >= 1, terminates.  (Expected by the interface; refuted: more than m coincident points make construction recurse forever.)", "quantifier": "every point set", "why_tests_cant": "Tests never build the midpoint rule over duplicate points; non-termination cannot be observed by a finite test.", "anchors": ["src/pico_tree/pico_tree/internal/kd_tree_builder.hpp: splitter_midpoint_max_side, create_node, is_leaf"]}
{"id": "C06", "title": "No empty leaves with the sliding midpoint and median rules", "statement": "Trees built with the sliding midpoint or median rule contain no empty leaf, hence at most n leaves; with max_leaf_size every branch has at least two points.", "quantifier": "every non-empty point set, every stop condition", "why_tests_cant": "Emptiness would need a specific tie pattern at the split value.", "anchors": ["src/pico_tree/pico_tree/internal/kd_tree_builder.hpp: splitter_sliding_midpoint_max_side, splitter_median_max_side"]}
{"id": "C07", "title": "Median rule builds balanced trees", "statement": "With the median rule the two children of every branch hold numbers of points that differ by at most one, and with max_leaf_size_t(m) no leaf lies deeper than the least h with n <= m*2^h.", "quantifier": "every point set and leaf size", "why_tests_cant": "A bound on all tree shapes; tests look at one or two shapes.", "anchors": ["src/pico_tree/pico_tree/internal/kd_tree_builder.hpp: splitter_median_max_side, create_node"]}
{"id": "C08", "title": "leaf_ranges partitions the points", "statement": "leaf_ranges() returns, in depth-first order, non-empty index ranges that are pairwise disjoint, whose concatenation is a permutation of all point indices, one per leaf, each no larger than max_leaf_size when that stop condition is used (sliding midpoint and median rules).", "quantifier": "every point set and stop condition", "why_tests_cant": "Universal over inputs; tests check one small example.", "anchors": ["src/pico_tree/pico_tree/kd_tree.hpp: leaf_ranges", "src/pico_tree/pico_tree/internal/kd_tree_data.hpp: leaf_ranges, insert_leaf_range"]}
{"id": "C09", "title": "leaf_ranges is defined for every tree", "statement": "leaf_ranges() 'returns the index range for all non-empty leaves' of any constructed tree.  (Refuted: on a tree with an empty leaf, which the midpoint rule produces, it follows null child pointers.)", "quantifier": "every tree constructible with the midpoint rule", "why_tests_cant": "Undefined behaviour may go unnoticed in a test run, and the existing test happens to have no empty leaf.", "anchors": ["src/pico_tree/pico_tree/internal/kd_tree_data.hpp: insert_leaf_range", "src/pico_tree/pico_tree/kd_tree.hpp: leaf_ranges"]}
{"id": "C10", "title": "search_nn returns a nearest neighbour", "statement": "For metric_l1 and metric_l2_squared, search_nn reports an index whose distance to the query is minimal over all points, together with exactly that distance (exact arithmetic).", "quantifier": "every point set, every query point (inside or outside the bounds), every dimension, stop condition, rule, start bounds (even bounds that do not contain the points), every conforming std algorithm", "why_tests_cant": "Tests compare with brute force on a few random clouds; pruning errors only show for particular query/box configurations.", "anchors": ["src/pico_tree/pico_tree/kd_tree.hpp: search_nn", "src/pico_tree/pico_tree/internal/kd_tree_search.hpp: search_nearest_euclidean", "src/pico_tree/pico_tree/internal/search_visitor.hpp: search_nn"]}
{"id": "C11", "title": "search_knn returns the k nearest neighbours in order", "statement": "For metric_l1 and metric_l2_squared, search_knn(x, k, knn) returns min(k, n) distinct points sorted by distance with their exact distances, and every point not returned is at least as far as every returned one.", "quantifier": "every point set, query, k >= 1, dimension, stop condition, rule, bounds", "why_tests_cant": "Brute-force comparison is only ever done on samples; ties and k > n are rarely sampled.", "anchors": ["src/pico_tree/pico_tree/kd_tree.hpp: search_knn", "src/pico_tree/pico_tree/internal/kd_tree_search.hpp: search_nearest_euclidean", "src/pico_tree/pico_tree/internal/search_visitor.hpp: search_knn, insert_sorted"]}
{"id": "C12", "title": "search_knn into a caller-supplied range larger than the point set", "statement": "search_knn(x, begin, end) with k = end-begin > n fills the first n slots with all points sorted by distance, sets only the distance of the last slot to numeric_limits::max() and leaves every other slot and every other field untouched.", "quantifier": "every point set, query, k > n and every previous content of the range", "why_tests_cant": "Depends on the prior content of the output buffer, which tests do not vary.", "anchors": ["src/pico_tree/pico_tree/kd_tree.hpp: search_knn(P_, RandomAccessIterator_, RandomAccessIterator_)", "src/pico_tree/pico_tree/internal/search_visitor.hpp: search_knn"]}
{"id": "C13", "title": "search_knn is defined for k = 0", "statement": "search_knn(x, 0, knn) returns an empty result.  (Refuted: the visitor writes through std::prev(end) of an empty range.)", "quantifier": "every tree and query", "why_tests_cant": "Undefined behaviour need not fail a test.", "anchors": ["src/pico_tree/pico_tree/kd_tree.hpp: search_knn", "src/pico_tree/pico_tree/internal/search_visitor.hpp: search_knn constructor"]}
{"id": "C14", "title": "search_radius returns exactly the open ball", "statement": "For metric_l1 and metric_l2_squared, search_radius(x, r, n) returns each point whose distance to x is strictly smaller than r exactly once with its exact distance, and nothing else.", "quantifier": "every point set, query, radius (including 0 and negative), dimension, stop condition, rule, bounds", "why_tests_cant": "Pruning and boundary behaviour over all configurations cannot be sampled.", "anchors": ["src/pico_tree/pico_tree/kd_tree.hpp: search_radius", "src/pico_tree/pico_tree/internal/kd_tree_search.hpp: search_nearest_euclidean", "src/pico_tree/pico_tree/internal/search_visitor.hpp: search_radius"]}
{"id": "C15", "title": "search_radius includes points exactly at the radius", "statement": "A point whose distance equals the radius is 'within' the radius and is returned, as the reference check in the unit tests (<=) suggests.  (Refuted: the comparison is strict.)", "quantifier": "every point set, query and radius", "why_tests_cant": "Random floating point test data practically never hits equality.", "anchors": ["src/pico_tree/pico_tree/internal/search_visitor.hpp: search_radius::operator()", "test/pico_tree/common.hpp: test_radius"]}
{"id": "C16", "title": "sort=true only reorders", "statement": "search_radius(..., sort = true) returns the same neighbours as sort = false, ordered from closest to farthest.", "quantifier": "every search and every conforming std::sort", "why_tests_cant": "std::sort is unstable, so any order of ties is allowed.", "anchors": ["src/pico_tree/pico_tree/kd_tree.hpp: search_radius", "src/pico_tree/pico_tree/internal/search_visitor.hpp: search_radius::sort"]}
{"id": "C17", "title": "search_box returns exactly the points in the box (Euclidean metrics)", "statement": "search_box(min, max, idxs) returns exactly the indices of the points p with min <= p <= max in every coordinate, each once; for an inverted box the result is empty.", "quantifier": "every point set, every min/max (inside, outside, inverted), dimension, stop condition, rule, start bounds that contain the points; every totally ordered scalar including NaN-free IEEE floating point values", "why_tests_cant": "The 'fully contained' shortcut and the running box are only wrong for specific nestings of query and cells.", "anchors": ["src/pico_tree/pico_tree/kd_tree.hpp: search_box", "src/pico_tree/pico_tree/internal/kd_tree_search.hpp: search_box", "src/pico_tree/pico_tree/internal/box.hpp: contains"]}
{"id": "C18", "title": "search_box is exact for any user supplied start bounds", "statement": "search_box is exact no matter which bounds_t were passed at construction.  (Refuted: if a point lies outside the given bounds, search_box can report points outside the query box.)", "quantifier": "every bounds_t argument", "why_tests_cant": "Tests only use bounds that enclose the points.", "anchors": ["src/pico_tree/pico_tree/internal/kd_tree_builder.hpp: bounds_t, box_from_bounds", "src/pico_tree/pico_tree/internal/kd_tree_search.hpp: search_box"]}
{"id": "C19", "title": "Approximate nearest neighbour guarantee", "statement": "search_nn(x, e, nn) with e >= 1 reports a point whose true distance is at most e times the distance of the true nearest neighbour, and the reported distance is the true distance of the reported point divided by e.", "quantifier": "every point set, query, e >= 1, tree shape; metric_l1 and metric_l2_squared", "why_tests_cant": "An approximation factor over all inputs cannot be sampled.", "anchors": ["src/pico_tree/pico_tree/kd_tree.hpp: search_nn(x, e, nn)", "src/pico_tree/pico_tree/internal/search_visitor.hpp: search_approximate_nn"]}
{"id": "C20", "title": "Approximate k nearest neighbours guarantee", "statement": "search_knn(x, k, e, knn) with e >= 1 returns min(k, n) distinct points, sorted, with distances divided by e, and for each i the true distance of the i-th result is at most e times the distance of the true i-th nearest neighbour.", "quantifier": "every point set, query, k >= 1, e >= 1, tree shape", "why_tests_cant": "Rank-wise approximation over all inputs cannot be sampled.", "anchors": ["src/pico_tree/pico_tree/kd_tree.hpp: search_knn(x, k, e, knn)", "src/pico_tree/pico_tree/internal/search_visitor.hpp: search_approximate_knn"]}
{"id": "C21", "title": "Approximate radius search is sandwiched", "statement": "search_radius(x, r, e, n) with e >= 1 returns no point at distance >= r and no point twice, returns every point with distance <= r/e (and < r), and reports distances divided by e.", "quantifier": "every point set, query, radius, e >= 1, tree shape", "why_tests_cant": "Universal claim about what may be dropped.", "anchors": ["src/pico_tree/pico_tree/kd_tree.hpp: search_radius(x, radius, e, n)", "src/pico_tree/pico_tree/internal/search_visitor.hpp: search_approximate_radius"]}
{"id": "C22", "title": "Custom visitor contract", "statement": "For any user visitor whose max() never increases while it is being fed, search_nearest calls it at most once per point, with the point's true distance, and every point it was not called for is farther than the final max().", "quantifier": "every visitor (any state, any callback), every point set, query, tree shape; metrics that are sums of per-coordinate monotone terms (metric_l1, metric_l2_squared, LP^P)", "why_tests_cant": "Quantifies over all user code behind the visitor interface.", "anchors": ["src/pico_tree/pico_tree/kd_tree.hpp: search_nearest", "src/pico_tree/pico_tree/internal/kd_tree_search.hpp: search_nearest_euclidean"]}
{"id": "C23", "title": "Reported neighbours are genuine for every metric and scalar type", "statement": "Every (index, distance) pair reported by search_nn, search_knn, search_radius is a point of the space with distance bit-for-bit equal to metric(query, point); no index is reported twice.  This holds for every metric and for floating point scalars; queries and distances may be NaN or infinite, the points themselves only have to be ordered by < (no NaN coordinates).", "quantifier": "every metric, scalar type (an order on the coordinates of the points, no algebraic laws), point set, query, tree", "why_tests_cant": "Holds for every scalar bit pattern, which tests cannot enumerate.", "anchors": ["src/pico_tree/pico_tree/internal/kd_tree_search.hpp: search_nearest_euclidean, search_nearest_topological", "src/pico_tree/pico_tree/internal/search_visitor.hpp: search_nn, search_knn, search_radius"]}
{"id": "C24", "title": "Nearest neighbour search is exact for metric_lpinf", "statement": "With metric_lpinf (max norm) search_nn, search_knn and search_radius are exact like for the other metrics.  (Refuted: node pruning sums per-dimension offsets, which is not a lower bound of the max norm.)  What does hold: the reported nearest neighbour is at most sdim times as far as the true one.", "quantifier": "every point set and query", "why_tests_cant": "Tests of LPInf only evaluate the metric itself; a miss needs a query outside a cell in two dimensions.", "anchors": ["src/pico_tree/pico_tree/metric.hpp: metric_lpinf", "src/pico_tree/pico_tree/internal/kd_tree_search.hpp: search_nearest_euclidean (line 91 NOTE)", "README.md: metrics list"]}
{"id": "C25", "title": "Nearest neighbour search is exact for metric_lninf", "statement": "With metric_lninf (min norm) search_nn is exact.  (Refuted.)", "quantifier": "every point set and query", "why_tests_cant": "Tests only evaluate the metric itself.", "anchors": ["src/pico_tree/pico_tree/metric.hpp: metric_lninf", "src/pico_tree/pico_tree/internal/kd_tree_search.hpp: search_nearest_euclidean"]}
{"id": "C26", "title": "Nearest neighbour searches are exact on the circle (metric_so2)", "statement": "For one-dimensional points and queries with coordinates in [0,1] and metric_so2, search_nn, search_knn and search_radius are exact with respect to the circular distance min(|x-y|, 1-|x-y|), including neighbours across the 0/1 seam.", "quantifier": "every point set in [0,1], every query in [0,1], every tree shape", "why_tests_cant": "Wrap-around pruning is wrong only for specific cell/query configurations.", "anchors": ["src/pico_tree/pico_tree/metric.hpp: metric_so2", "src/pico_tree/pico_tree/internal/kd_tree_search.hpp: search_nearest_topological", "src/pico_tree/pico_tree/internal/segment.hpp: segment_s1::distance"]}
{"id": "C27", "title": "Nearest neighbour searches are exact on SE(2) (metric_se2_squared)", "statement": "For three-dimensional points whose third coordinate is in [0,1], search_nn, search_knn and search_radius with metric_se2_squared are exact with respect to dx^2 + dy^2 + s1(dtheta)^2.", "quantifier": "every such point set and query, every tree shape", "why_tests_cant": "As for the circle; needs mixed Euclidean and circular pruning.", "anchors": ["src/pico_tree/pico_tree/metric.hpp: metric_se2_squared", "src/pico_tree/pico_tree/internal/kd_tree_search.hpp: search_nearest_topological"]}
{"id": "C28", "title": "0 and 1 are the same point of the circle", "statement": "With metric_so2, a search_radius around 0 and around 1 returns the same neighbours with the same distances.", "quantifier": "every point set in [0,1] and every radius", "why_tests_cant": "Documented identification; tests sample one cloud.", "anchors": ["src/pico_tree/pico_tree/metric.hpp: topological_space_tag documentation, metric_so2"]}
{"id": "C29", "title": "search_box is exact on topological spaces, including wrap-around", "statement": "With metric_so2 / metric_se2_squared, search_box returns exactly the points inside the query box, where in circular dimensions min > max denotes the arc from min through 1/0 to max; no assertion of the library fires.", "quantifier": "every point set, every query box (min <= max in the non-circular dimensions), every tree shape and bounds containing the points", "why_tests_cant": "Interaction of containment, intersection and wrap-around over all cells.", "anchors": ["src/pico_tree/pico_tree/internal/kd_tree_search.hpp: search_box::intersects_left/right", "src/pico_tree/pico_tree/internal/box.hpp: metric_box_map", "src/pico_tree/pico_tree/internal/segment.hpp: segment_s1::contains"]}
{"id": "C30", "title": "Results do not depend on how the tree was built", "statement": "Two trees over the same points built with any stop conditions, rules and bounds (and any standard library) return the same set of neighbours for search_radius, the same set for search_box and the same list of distances for search_nn / search_knn.", "quantifier": "every pair of build configurations", "why_tests_cant": "Pairs of configurations are never compared by tests.", "anchors": ["src/pico_tree/pico_tree/kd_tree.hpp: kd_tree::kd_tree, search_nn, search_knn, search_radius, search_box"]}
{"id": "C31", "title": "Built-in metrics are what they say", "statement": "metric_l1, metric_lpinf and metric_so2 (coordinates in [0,1]) are symmetric, non-negative, zero on equal points and satisfy the triangle inequality; metric_l2_squared and metric_se2_squared are symmetric, non-negative and vanish exactly on equal (identified) points; metric(x) of a scalar is the metric distance of a one-coordinate difference x.", "quantifier": "all points of every dimension", "why_tests_cant": "Algebraic laws over all inputs.", "anchors": ["src/pico_tree/pico_tree/metric.hpp: metric_l1, metric_l2_squared, metric_lpinf, metric_so2, metric_se2_squared", "src/pico_tree/pico_tree/distance.hpp: r1_distance, s1_distance"]}
{"id": "C32", "title": "Segment distance is the distance to the nearest element of the segment", "statement": "segment_r1(min,max).distance(x) and segment_s1(min,max).distance(x) equal the minimum over all y contained in the segment of the corresponding one-dimensional distance between x and y; it is attained.", "quantifier": "all segments (including wrapping ones) and all x (in [0,1] for s1)", "why_tests_cant": "Infimum over a continuum.", "anchors": ["src/pico_tree/pico_tree/internal/segment.hpp: segment_r1, segment_s1"]}
{"id": "C33", "title": "save followed by load reproduces the tree", "statement": "Loading the bytes written by save yields the same indices, root box and node structure, whatever the padding bytes contained, consumes exactly the bytes written, and hence every later search returns the same results.", "quantifier": "every tree, Euclidean or topological nodes, every dimension, any content of struct padding, any bytes following in the stream", "why_tests_cant": "Tests round-trip one tree.", "anchors": ["src/pico_tree/pico_tree/internal/kd_tree_data.hpp: load, save, read_node, write_node", "src/pico_tree/pico_tree/internal/stream_wrapper.hpp: read, write", "src/pico_tree/pico_tree/kd_tree.hpp: load, save"]}
{"id": "C34", "title": "A truncated file is rejected by load", "statement": "Loading a file that was cut short (e.g. by a crash during save) reports an error.  (Refuted: no read is checked; every proper prefix of a saved tree makes load use indeterminate values.)", "quantifier": "every tree and every proper prefix (crash point)", "why_tests_cant": "Quantifies over all crash points; behaviour is undefined.", "anchors": ["src/pico_tree/pico_tree/internal/stream_wrapper.hpp: stream_wrapper::read", "src/pico_tree/pico_tree/internal/kd_tree_data.hpp: load, read_node"]}
{"id": "C35", "title": "Node allocation never aliases", "statement": "All node pointers handed out by one chunk_allocator are distinct, lie inside chunks it owns and stay valid (not freed) until it is destroyed.", "quantifier": "every number of allocations and chunk size >= 1", "why_tests_cant": "History quantifier.", "anchors": ["src/pico_tree/pico_tree/internal/memory.hpp: chunk_allocator::allocate, list_pool_resource::allocate"]}
{"id": "C36", "title": "Node memory is freed exactly once", "statement": "Over any history of constructing, allocating from, move-constructing, move-assigning and destroying allocators, no chunk is freed twice or used after free by its owner, and once all are destroyed all chunks have been freed.  (First part proved; second refuted: move assignment to a non-empty allocator leaks its chunks.)", "quantifier": "every history", "why_tests_cant": "Leaks and double frees depend on histories; tests do not assign trees.", "anchors": ["src/pico_tree/pico_tree/internal/memory.hpp: list_pool_resource move operations, release", "src/pico_tree/pico_tree/kd_tree.hpp: kd_tree move assignment"]}
{"id": "C37", "title": "Python: .pkd header round trip and rejection", "statement": "A header written by save_kd_tree for metric L1, L2Squared or LPInf is read back as the same metric; a file of at least 16 bytes that does not start with such a header (wrong signature, unsupported version, unknown metric string) raises an error.  (For shorter files that agree so far the rejection is refuted: the missing bytes are read uninitialised.)", "quantifier": "every byte string", "why_tests_cant": "All possible file contents.", "anchors": ["src/pyco_tree/pico_tree/_pyco_tree/kd_tree.hpp: pkd_header"]}
{"id": "C38", "title": "Python: batched queries are independent of the OpenMP schedule", "statement": "search_knn(queries, k) run in parallel writes to row i exactly what a sequential search for query i writes, whatever the number of threads and interleaving.", "quantifier": "every interleaving of the threads, every number of queries and k", "why_tests_cant": "Schedules cannot be enumerated.", "anchors": ["src/pyco_tree/pico_tree/_pyco_tree/kd_tree.hpp: search_knn, search_radius, search_box"]}
{"id": "C39", "title": "Python: DArray indexing and slicing follow Python semantics", "statement": "DArray[i] returns element i (or n+i for negative i) or raises IndexError exactly when Python's list would; DArray[a:b:s] returns the same elements in the same order as list slicing, including negative steps although the implementation computes in unsigned 64-bit arithmetic.", "quantifier": "every size below 2^63, every index and slice", "why_tests_cant": "All 64-bit indices and slices.", "anchors": ["src/pyco_tree/pico_tree/_pyco_tree/def_darray.cpp: __getitem__", "src/pyco_tree/pico_tree/_pyco_tree/darray.hpp: copy"]}
{"id": "C40", "title": "Python: row- and column-major arrays denote the same points", "statement": "For a C-contiguous array points are rows, for an F-contiguous array points are columns; either way point i of the tree has the coordinates at the right memory offsets and the tree never reads outside the array buffer; other arrays are rejected.  (For F-ordered arrays this is refuted when there is a single point: such a column is C-contiguous as well and is read as many one-dimensional points.)", "quantifier": "every array shape and layout", "why_tests_cant": "All shapes.", "anchors": ["src/pyco_tree/pico_tree/_pyco_tree/py_array_map.hpp: make_map", "src/pyco_tree/pico_tree/_pyco_tree/core.hpp: array_layout"]}
{"id": "C41", "title": "Exactness survives floating point rounding", "statement": "With scalar double the nearest neighbour search still returns a point whose computed distance is minimal.  (Refuted in two or more dimensions: the incremental box distance can round above the distance of the true nearest neighbour.  Up to a factor of 1+2(2h+n)u, where h is the height of the tree, n the number of dimensions and u the rounding unit, the answers of search_nn, search_knn and search_radius are right.)", "quantifier": "every double input", "why_tests_cant": "A violating input is a needle in a haystack for random tests.", "anchors": ["src/pico_tree/pico_tree/internal/kd_tree_search.hpp: search_nearest_euclidean lines 93-99"]}
{"id": "C42", "title": "max_leaf_size larger than the index type", "statement": "max_leaf_size_t takes a size_t; any value >= n builds a single leaf.  (Refuted: the value is narrowed to the index type, so e.g. 2^32-1 with int indices becomes -1, and no node ever becomes a leaf.)", "quantifier": "every size_t value", "why_tests_cant": "Tests use small values.", "anchors": ["src/pico_tree/pico_tree/internal/kd_tree_builder.hpp: build_kd_tree_impl constructor (line 329), is_leaf"]}
{"id": "C43", "title": "Queries leave the search state as they found it", "statement": "The running node-box offsets (search_nearest) and the running box (search_box) are restored after every visited subtree, so the rest of the traversal sees exactly the offsets and box of its own node.", "quantifier": "every tree, query and visitor", "why_tests_cant": "A missing restore only matters for particular traversals.", "anchors": ["src/pico_tree/pico_tree/internal/kd_tree_search.hpp: search_nearest_euclidean, search_nearest_topological, search_box"]}
{"id": "C44", "title": "Longest side, first on ties", "statement": "Every branch splits in the dimension in which its cell is longest, the first such dimension on ties, and the midpoint rule splits exactly in the middle, so no cell of a cube-bounded tree is more elongated than 2:1.", "quantifier": "every point set and bounds", "why_tests_cant": "Universal over cells.", "anchors": ["src/pico_tree/pico_tree/internal/box.hpp: max_side", "src/pico_tree/pico_tree/internal/kd_tree_builder.hpp: splitter_midpoint_max_side"]}
{"id": "C45", "title": "Bounding boxes are tight", "statement": "Without user bounds the root box is the smallest axis-aligned box containing all points, and every branch stores the exact extreme coordinates of its children's points in the split dimension (rules without empty leaves).", "quantifier": "every point set", "why_tests_cant": "Universal over inputs.", "anchors": ["src/pico_tree/pico_tree/internal/space_wrapper.hpp: compute_bounding_box", "src/pico_tree/pico_tree/internal/box.hpp: fit", "src/pico_tree/pico_tree/internal/kd_tree_builder.hpp: create_node"]}
{"id": "C46", "title": "Python: a saved tree loads as the same tree", "statement": "load_kd_tree(pts, file) after save_kd_tree(tree, file) on the same points returns a tree equal to the saved one (same metric, dtype, dimension, indices, boxes and nodes), whatever the content of struct padding and whatever follows in the file.", "quantifier": "every tree made from an array of at most 2^31-1 points, every metric, both byte orders, every padding content", "why_tests_cant": "All trees and padding bytes.", "anchors": ["src/pyco_tree/pico_tree/_pyco_tree/kd_tree.hpp: save_kd_tree, load_kd_tree, pkd_header", "src/pyco_tree/pico_tree/_pyco_tree/def_kd_tree.cpp: load_kd_tree, save_kd_tree"]}
{"id": "C47", "title": "Python: search_knn returns the k nearest neighbours of every query", "statement": "For a tree of metric L1 or L2Squared, KdTree(pts, metric, leaf).search_knn(queries, k) succeeds and row i of the returned array holds, in order of distance, min(k, npts) nearest neighbours of query i with their exact distances (exact arithmetic); the shape is (n, k), or (n,) when k = 1.", "quantifier": "every C-contiguous pair of arrays of the same floating dtype, every leaf size, every k >= 1, every fair schedule of the parallel loop", "why_tests_cant": "Needs all arrays, layouts and schedules at once.", "anchors": ["src/pyco_tree/pico_tree/_pyco_tree/kd_tree.hpp: kd_tree_impl::search_knn, make_kd_tree", "src/pyco_tree/pico_tree/_pyco_tree/py_array_map.hpp: make_map"]}
{"id": "C48", "title": "Python: search_radius returns exactly the open ball of every query", "statement": "For metric L1 or L2Squared, search_radius(queries, radius, sort) returns one array per query holding each point with distance below the radius exactly once with its distance, sorted if requested.", "quantifier": "every contiguous pair of arrays of the same floating dtype, every radius, every fair schedule", "why_tests_cant": "Needs all arrays and schedules.", "anchors": ["src/pyco_tree/pico_tree/_pyco_tree/kd_tree.hpp: kd_tree_impl::search_radius"]}
{"id": "C49", "title": "Python: search_box returns exactly the points inside every box", "statement": "search_box(boxes) returns for the i-th pair of points of `boxes` the indices of exactly the points p with min <= p <= max in every coordinate, each once.", "quantifier": "every contiguous array with an even number of points, every metric, every NaN-free scalar (order laws only), every fair schedule", "why_tests_cant": "Needs all arrays and schedules.", "anchors": ["src/pyco_tree/pico_tree/_pyco_tree/kd_tree.hpp: kd_tree_impl::search_box"]}
{"id": "C50", "title": "Python: every entry returned by search_knn is a neighbour", "statement": "Every entry of the array returned by search_knn names a point of the tree together with its distance to the query.  (Refuted for k > npts: entries beyond npts are index 0 with distance 0, and the last has distance max.)", "quantifier": "every k", "why_tests_cant": "Tests use k <= npts.", "anchors": ["src/pyco_tree/pico_tree/_pyco_tree/kd_tree.hpp: search_knn"]}
{"id": "C51", "title": "Python: the answer has the memory layout of the input", "statement": "search_knn documents that the memory layout of a new (or resized) output equals that of the input, so for queries given as columns, column i holds the neighbours of query i.  (Refuted: the shape is (k, npts) but the memory is in C order, so columns mix the neighbours of different queries.)", "quantifier": "every layout of the queries", "why_tests_cant": "Tests use C order only.", "anchors": ["src/pyco_tree/pico_tree/_pyco_tree/kd_tree.hpp: ensure_size", "src/pyco_tree/pico_tree/_pyco_tree/def_kd_tree.cpp: search_knn documentation"]}
{"id": "C52", "title": "Python: a supplied output array is resized unless its shape fits, and only its elements are written", "statement": "search_knn(pts, k, nns) resizes nns when its shape is not (npts, k) and otherwise writes exactly the elements of nns.  (Both refuted: only the number of elements is compared; a strided view is written as if contiguous.)", "quantifier": "every output array", "why_tests_cant": "Tests pass fresh arrays.", "anchors": ["src/pyco_tree/pico_tree/_pyco_tree/kd_tree.hpp: search_knn, ensure_size"]}
{"id": "C53", "title": "Python: arguments of searches are checked", "statement": "A query array of another dtype than the tree's, an output array of another dtype than the tree's neighbours, a query array that is not two-dimensional and contiguous or whose points have another dimension than the tree's, and an odd number of box corners raise an error and nothing is read or written.  (The dimension check holds only for trees of dimension 2 or 3; refuted otherwise.)", "quantifier": "every tree and every array", "why_tests_cant": "All shapes and dimensions.", "anchors": ["src/pyco_tree/pico_tree/_pyco_tree/kd_tree.hpp: throw_if_not_scalar_dtype, throw_if_not_neighbor_dtype, make_map", "src/pyco_tree/pico_tree/_pyco_tree/core.hpp: is_dim_compatible"]}
{"id": "C54", "title": "Python: the constructor rejects arrays that are not matrices", "statement": "KdTree(pts, ...) raises an error when pts is not a two-dimensional contiguous array.  (Holds for three or more axes and for non-contiguous matrices; refuted for every contiguous one-dimensional array: its missing second axis is read first.)", "quantifier": "every array", "why_tests_cant": "Out-of-range reads of a shape often go unnoticed.", "anchors": ["src/pyco_tree/pico_tree/_pyco_tree/kd_tree.hpp: make_kd_tree, kd_tree::kd_tree", "src/pyco_tree/pico_tree/_pyco_tree/core.hpp: array_layout"]}
{"id": "C55", "title": "Python: loading with points that do not match is rejected", "statement": "load_kd_tree(pts, file) raises an error when pts has fewer points than the stored tree.  (Refuted: it succeeds and searching then reads outside of the points.)", "quantifier": "every file and array", "why_tests_cant": "Tests load with the same points.", "anchors": ["src/pyco_tree/pico_tree/_pyco_tree/kd_tree.hpp: load_kd_tree"]}
{"id": "C56", "title": "Python: a tree is a read-only view of its points", "statement": "numpy.asarray(tree) has the shape of the array the tree was made from and the same element at every index.", "quantifier": "every array a tree can be made from", "why_tests_cant": "All shapes and layouts.", "anchors": ["src/pyco_tree/pico_tree/_pyco_tree/kd_tree.hpp: request", "src/pyco_tree/pico_tree/_pyco_tree/def_kd_tree.cpp: def_buffer"]}
{"id": "C57", "title": "Exact answers for floating point grids", "statement": "With float or double coordinates, metric L1 or squared L2, search_nn, search_knn and search_radius give exactly the answers of exact real arithmetic when all coordinates are multiples of a power of two coarse enough for sums of distances not to round; in one dimension they give exactly the answers by computed distance, whatever the coordinates.", "quantifier": "every IEEE format, every finite input without overflow, every tree built with the median or sliding midpoint rule", "why_tests_cant": "Rounding errors depend on every bit of the input.", "anchors": ["src/pico_tree/pico_tree/internal/kd_tree_search.hpp: search_nearest_euclidean", "src/pico_tree/pico_tree/metric.hpp: metric_l1, metric_l2_squared"]}
{"id": "C58", "title": "Construction from floating point coordinates", "statement": "For float or double coordinates of at most a quarter of the range, building with the median or sliding midpoint rule terminates; the tree stores every index once, in consecutive non-empty leaves.", "quantifier": "every IEEE format and point set", "why_tests_cant": "Rounding of split values could make partitions empty or recursion endless for rare inputs.", "anchors": ["src/pico_tree/pico_tree/internal/kd_tree_builder.hpp: splitter_rule_traits, build_kd_tree_impl"]}
{"id": "C59", "title": "Box search on floating point coordinates", "statement": "search_box reports exactly the points whose (real-valued) coordinates lie in the closed box, for all finite float or double inputs; rounding plays no part.", "quantifier": "every IEEE format, point set and box", "why_tests_cant": "Boundary cases differ in the last bit.", "anchors": ["src/pico_tree/pico_tree/internal/kd_tree_search.hpp: search_box"]}
{"id": "C60", "title": "A nearest neighbour is always found", "statement": "search_nn on a tree (which has at least one point) returns the index of a point.  (Refuted for double: when all squared distances overflow, nothing is stored and the caller's index is returned; proved in general whenever no distance is below the largest number.)", "quantifier": "every finite double input", "why_tests_cant": "Tests stay far from the ends of the range.", "anchors": ["src/pico_tree/pico_tree/internal/kd_tree_search.hpp: search_nearest_euclidean", "src/pico_tree/pico_tree/internal/search_visitor.hpp: search_nn"]}
{"id": "C61", "title": "Accuracy of reported distances", "statement": "The distance that metric L1 or squared L2 computes in float or double differs from the exact one by at most 2(n+3)u times the exact one (n dimensions, u = 2^-precision), plus n times the smallest positive number for squares.", "quantifier": "every IEEE format and every finite input without overflow", "why_tests_cant": "Worst cases of rounding are rare.", "anchors": ["src/pico_tree/pico_tree/metric.hpp: metric_l1, metric_l2_squared", "src/pico_tree/pico_tree/distance.hpp"]}
{"id": "C62", "title": "A cover tree stores every point exactly once, with correct bounds", "statement": "Constructing a cover_tree of a non-empty space has no undefined behaviour; the nodes of the tree hold each point index exactly once, and the maximum distance stored at a node is an upper bound on the distance from its point to every point stored below it.", "quantifier": "every non-empty point set, metric, base, scalar type (the bound: totally ordered distances), every shuffle, every C library", "why_tests_cant": "All insertion orders; nodes are moved between parents while the tree grows.", "anchors": ["examples/pico_understory/pico_understory/internal/cover_tree_builder.hpp: build_cover_tree", "examples/pico_understory/pico_understory/cover_tree.hpp: cover_tree"]}
{"id": "C63", "title": "Construction of a cover tree ends", "statement": "Constructing a cover_tree of a non-empty space returns.  (Proved for exact scalars and for real numbers; refuted for double: when the random shuffle puts two coinciding points first, the level of the root is minus infinity and construction never returns.)", "quantifier": "every non-empty point set, metric, base and shuffle", "why_tests_cant": "Depends on coinciding points and on the random order.", "anchors": ["examples/pico_understory/pico_understory/internal/cover_tree_builder.hpp: build_cover_tree, insert, base"]}
{"id": "C64", "title": "Cover tree searches are exact for metrics with a triangle inequality", "statement": "search_nn, search_knn (vector and range), search_radius and their approximate forms give exactly the answers required of kd_tree, for every metric whose distance satisfies the triangle inequality on the points and the query.  L1, LPInf and SO(2) satisfy it in exact arithmetic; the Euclidean distance metric_l2 does over the real numbers, where the nearest, k nearest and radius searches are exact.", "quantifier": "every tree, query, radius, k >= 1, initial content of outputs", "why_tests_cant": "Pruning depends on stored bounds of every node.", "anchors": ["examples/pico_understory/pico_understory/internal/cover_tree_search.hpp: search_nearest", "examples/pico_understory/pico_understory/cover_tree.hpp: search_nn, search_knn, search_radius", "examples/pico_understory/pico_understory/metric.hpp: metric_l2"]}
{"id": "C65", "title": "Cover tree searches are exact for squared distances", "statement": "search_nn of a cover_tree with metric_l2_squared returns a nearest neighbour.  (Refuted: points 18, 0, 5 and query 10 give 18.)", "quantifier": "every tree and query", "why_tests_cant": "Small trees often give the right answer by chance.", "anchors": ["examples/pico_understory/pico_understory/internal/cover_tree_search.hpp: search_nearest", "src/pico_tree/pico_tree/metric.hpp: metric_l2_squared"]}
{"id": "C66", "title": "Construction of a forest", "statement": "Constructing a kd_forest with at least one tree returns the requested number of trees; each has a random unit vector, holds the points reflected at the hyperplane orthogonal to it, and indexes each point exactly once.  Reflections do not change squared Euclidean distances.  A forest size of zero fails an assertion.", "quantifier": "every non-empty point set within a ball that fits the scalar type, leaf size, forest size, and random numbers that can be normalised exactly; exact scalars", "why_tests_cant": "Random; a slightly wrong reflection still looks plausible.", "anchors": ["examples/pico_understory/pico_understory/kd_forest.hpp: kd_forest", "examples/pico_understory/pico_understory/internal/rkd_tree_builder.hpp: build_rkd_tree", "examples/pico_understory/pico_understory/internal/rkd_tree_hh_data.hpp: rotate_point, random_normal"]}
{"id": "C67", "title": "A forest search over as many leaves as there are points is exact", "statement": "search_nn(x, max_leaves_visited, nn) with the squared Euclidean metric returns a nearest neighbour and its distance whenever max_leaves_visited is at least the number of points.", "quantifier": "every forest, query, leaf and forest size, behaviour of the priority queue among equal keys; exact scalars", "why_tests_cant": "Pruning by box distances and the order of the queue interact.", "anchors": ["examples/pico_understory/pico_understory/kd_forest.hpp: search_nn", "examples/pico_understory/pico_understory/internal/kd_tree_priority_search.hpp: priority_search_nearest_euclidean"]}
{"id": "C68", "title": "A forest search over few leaves", "statement": "With any positive max_leaves_visited, search_nn returns some point of the set with its true distance; no search has undefined behaviour; per tree a visitor sees at most max_leaves_visited * max_leaf_size points, none twice, at least one in total, and with as many leaves as points all points that are closer than its final bound.  With max_leaves_visited = 0 the index of the output is left as it was.", "quantifier": "every forest, visitor, query and limit; undefined behaviour and limits: every scalar type and metric", "why_tests_cant": "Which leaf is reached first depends on the random rotation.", "anchors": ["examples/pico_understory/pico_understory/kd_forest.hpp: search_nearest, search_nn", "examples/pico_understory/pico_understory/internal/kd_tree_priority_search.hpp: priority_search_nearest_euclidean"]}
{"id": "C69", "title": "Forest searches with other metrics", "statement": "search_nn of a kd_forest with another Euclidean-space metric returns a nearest neighbour with respect to this metric.  (Refuted for metric_l1: distances are computed between reflected points.)", "quantifier": "every forest and query with metric_l1", "why_tests_cant": "Compiles and returns plausible neighbours.", "anchors": ["examples/pico_understory/pico_understory/kd_forest.hpp: kd_forest", "src/pico_tree/pico_tree/metric.hpp: metric_l1"]}
{"id": "C70", "title": "Several neighbours from a forest", "statement": "search_nearest of a kd_forest with the k-nearest-neighbours visitor finds the k nearest neighbours when enough leaves are visited.  (Refuted: every tree shows its points to the same visitor, so one point can be reported several times in place of others.)", "quantifier": "every forest with several trees", "why_tests_cant": "Needs several trees and more than one neighbour.", "anchors": ["examples/pico_understory/pico_understory/kd_forest.hpp: search_nearest", "src/pico_tree/pico_tree/internal/search_visitor.hpp: search_knn"]}
{"id": "C71", "title": "Arrays are read as the points they hold", "statement": "A tree over a space_map of scalars (dimension given at compile time or as third argument), a space_map or vector of points, or a matrix_space sees exactly the points stored in the array, in order; search_nn then returns the index of a nearest one.  An array that is too short is read past its end.", "quantifier": "every array, offset, number of points and dimension whose product fits size_t, every query point in memory", "why_tests_cant": "Layouts, offsets and both kinds of dimension at once.", "anchors": ["src/pico_tree/pico_tree/map.hpp: space_map, point_map", "src/pico_tree/pico_tree/map_traits.hpp", "src/pico_tree/pico_tree/vector_traits.hpp", "src/pico_tree/pico_tree/array_traits.hpp", "examples/pico_understory/pico_understory/internal/matrix_space.hpp: matrix_space"]}
{"id": "C72", "title": "The run-time dimension given to a map is respected", "statement": "A space_map constructed with a run-time dimension has this dimension, and a point_map made from a range has the size of the range.  (Refuted: a compile-time dimension silently overrides both.  Leaving the argument out when the dimension is only known at run time compiles and gives a dimension of 2^64-1; reading any point is then out of bounds.)", "quantifier": "every dimension, array and size", "why_tests_cant": "Compiles without warning.", "anchors": ["src/pico_tree/pico_tree/map.hpp: space_map, point_map, map_storage, space_map_matrix_storage"]}
{"id": "C73", "title": "Eigen matrices are read as the points they hold", "statement": "A tree over an Eigen matrix, or a map with any outer stride, sees the columns of a column-major and the rows of a row-major matrix; a vector expression used as query is read coefficient by coefficient; search_nn then returns a nearest column (row).", "quantifier": "every size, storage order, outer stride, fixed or dynamic sizes, inner stride one", "why_tests_cant": "Combinations of storage order and strides.", "anchors": ["src/pico_tree/pico_tree/eigen3_traits.hpp: eigen_traits_impl, eigen_point_traits"]}
{"id": "C74", "title": "Every Eigen expression that compiles is read correctly", "statement": "Also maps with an inner stride and rows (columns) of a column-major (row-major) matrix as queries are read coefficient by coefficient.  (Refuted: only the first coefficient's address is used, and consecutive scalars are read.)  A matrix with a single row or column at compile time is always one point.", "quantifier": "every Eigen map and block accepted by the traits", "why_tests_cant": "Compiles; wrong numbers but no crash.", "anchors": ["src/pico_tree/pico_tree/eigen3_traits.hpp: eigen_point_traits::data, eigen_traits_impl::point_at"]}
{"id": "C75", "title": "A continuous cv::Mat is read as the points it holds", "statement": "A tree over an opencv_mat_map of a continuous cv::Mat sees one point per row, its coordinates being the channels of all columns; search_nn then returns a nearest row.", "quantifier": "every continuous matrix, number of channels, dimension at compile time or at run time", "why_tests_cant": "Combinations of columns and channels.", "anchors": ["src/pico_tree/pico_tree/opencv_traits.hpp: opencv_mat_map"]}
{"id": "C76", "title": "A part of a cv::Mat is read as the points it holds", "statement": "A tree over an opencv_mat_map of a cv::Mat whose rows are not adjacent (a region of interest, padded rows) sees one point per row.  (Refuted: with a compile-time dimension the padding is taken for coordinates of the next points; with a run-time dimension the padding becomes further coordinates.)", "quantifier": "every two-dimensional matrix", "why_tests_cant": "The test uses a continuous matrix.", "anchors": ["src/pico_tree/pico_tree/opencv_traits.hpp: opencv_mat_map::opencv_mat_map"]}
{"id": "C77", "title": "The dimension may be given at compile time or at run time", "statement": "A space with a run-time dimension is read like the same space with that dimension at compile time, and the trees built from the two are equal; dynamic_space changes nothing but this.", "quantifier": "every space, metric, rule, stop condition and start bounds", "why_tests_cant": "Two instantiations of all templates.", "anchors": ["src/pico_tree/pico_tree/internal/space_wrapper.hpp: space_wrapper", "examples/pico_toolshed/pico_toolshed/dynamic_space.hpp: dynamic_space", "src/pico_tree/pico_tree/map.hpp: space_map"]}
{"id": "C78", "title": "A vector written to a binary file is read back", "statement": "write_bin followed by read_bin of the same file yields the same vector, whatever the vector held before, and changes no other file.  read_bin of any file yields the whole elements it contains and ignores further bytes.  A file that cannot be opened makes either function throw std::runtime_error.", "quantifier": "every non-empty vector of a trivially copyable type, every file name and file system", "why_tests_cant": "Sizes that are no multiple of the element size, old contents, failures to open.", "anchors": ["examples/pico_toolshed/pico_toolshed/format/format_bin.hpp: write_bin, read_bin", "src/pico_tree/pico_tree/internal/stream_wrapper.hpp"]}
{"id": "C79", "title": "An empty vector written to a binary file is read back", "statement": "write_bin of an empty vector followed by read_bin yields an empty vector.  (Refuted: nothing is written; an existing file keeps its old contents, which are then read, and a missing file is not created.)", "quantifier": "every file system", "why_tests_cant": "Needs an older file of the same name.", "anchors": ["examples/pico_toolshed/pico_toolshed/format/format_bin.hpp: write_bin"]}
{"id": "C80", "title": "Big-endian integers are read correctly on every machine", "statement": "The conversion from big-endian to native byte order applied to the integer whose bytes in memory are those of v in big-endian order is v, on little-endian and on big-endian machines; on the latter it is the identity and on the former it equals the swap of all bytes, which is its own inverse.", "quantifier": "every integral type of one to eight bytes, signed or unsigned, every value, both byte orders", "why_tests_cant": "Tests run on one machine and with few values.", "anchors": ["examples/pico_toolshed/pico_toolshed/format/endian.hpp: big_endian, swap_endian"]}
{"id": "C81", "title": "MNIST files are read as the images and labels they hold", "statement": "Reading a well-formed image (label) file yields exactly its images (labels), whatever the vector held before and whatever follows them in the file.  A file with another first number is refused with std::runtime_error.", "quantifier": "every number of images and labels below 2^31, every content, both byte orders", "why_tests_cant": "The data sets are four fixed files.", "anchors": ["examples/pico_toolshed/pico_toolshed/format/format_mnist.hpp: read_mnist_images, read_mnist_labels"]}
{"id": "C82", "title": "MNIST files that do not hold what they announce are refused", "statement": "A file shorter than its header announces is refused.  (Refuted: what is there is read; the remaining pixels or labels keep what the vector held before or are zero.)  A header whose image size is not 784 pixels is refused unless height times width overflows int, which is undefined; a negative number of images throws std::length_error.", "quantifier": "every header, every shorter file", "why_tests_cant": "Truncated downloads and other sizes are not tested.", "anchors": ["examples/pico_toolshed/pico_toolshed/format/format_mnist.hpp: read_mnist_images, read_mnist_labels"]}
{"id": "C83", "title": "fvecs, ivecs and bvecs files are read as the vectors they hold", "statement": "Reading a file whose name ends in the right letters, in upper or lower case, yields exactly the vectors of its rows when these have the dimension of the point type; a last partial row is ignored.  A name with another ending throws std::runtime_error, or std::out_of_range when it has fewer than five characters.", "quantifier": "every element type and dimension, every number of rows, every content, every name", "why_tests_cant": "The examples read one file of one dimension.", "anchors": ["examples/pico_toolshed/pico_toolshed/format/format_xvecs.hpp: read_xvecs"]}
{"id": "C84", "title": "fvecs, ivecs and bvecs files of another dimension are refused", "statement": "Reading a file whose rows have another dimension than the point type fails or yields its rows.  (Refuted: the dimension stored in the file is not looked at and the bytes are cut into rows of the wrong size.)  A name consisting of the ending only is accepted.", "quantifier": "every file", "why_tests_cant": "No file of another dimension is ever read.", "anchors": ["examples/pico_toolshed/pico_toolshed/format/format_xvecs.hpp: read_xvecs"]}
{"id": "C85", "title": "The pose of a scan is a rigid motion", "statement": "A pose file of six numbers describes: turn about the third, then the second, then the first axis by the given angles, then translate.  Every pose that is read preserves distances and orientation.", "quantifier": "every pose file, in exact arithmetic with exact sine and cosine", "why_tests_cant": "A sign error in one of nine products only shows for some angles.", "anchors": ["examples/pico_toolshed/pico_toolshed/format/format_uosr.hpp: isometry, uosr_scan_reader::read_pose"]}
{"id": "C86", "title": "Scans are read as the points they list", "statement": "Every line of at least three words gives one point, the pose applied to the three numbers, also when the last line does not end in a newline.  All scans of a directory are read in the order of the directory, each with its own pose, and appended to the points.  The names recognised are scan, three digits, any one character, 3d.  Points written with write_ascii are lines of this form that hold the same numbers.", "quantifier": "every directory with one pose per scan, every text, every conversion of numbers", "why_tests_cant": "File systems, white space and missing newlines vary.", "anchors": ["examples/pico_toolshed/pico_toolshed/format/format_uosr.hpp: read_uosr, uosr_scan_reader", "examples/pico_toolshed/pico_toolshed/format/format_ascii.hpp: write_ascii"]}
{"id": "C87", "title": "Lines and files that are no scans are ignored", "statement": "A line without three words gives no point, and only names ending in .3d are scans.  (Refuted: an empty line gives the origin, a line with one or two words repeats the last number, and any character stands for the dot.)  A scan without pose file throws std::runtime_error; a pose with too few numbers is used uninitialised.", "quantifier": "every line, name and pose", "why_tests_cant": "A trailing empty line adds one point among millions.", "anchors": ["examples/pico_toolshed/pico_toolshed/format/format_uosr.hpp: read_uosr, uosr_scan_reader::read_next, uosr_scan_reader::read_pose"]}
{"id": "C88", "title": "Any metric that adds up monotone terms of the coordinates is searched exactly", "statement": "For a metric written by the user that is a sum over the coordinates of non-negative terms, where the metric applied to a single coordinate difference (or to the distance to a segment) does not exceed the term of any point beyond it (of the segment), the nearest neighbour, the k nearest neighbours and the points within a radius are exactly those of a linear scan with the metric itself; approximate searches answer within the factor given.", "quantifier": "every such metric of either category, every tree, every query, k, radius and factor, in exact arithmetic", "why_tests_cant": "User metrics are not part of the test suite.", "anchors": ["examples/kd_tree/kd_tree_custom_metric.cpp", "src/pico_tree/pico_tree/kd_tree.hpp: search_nn, search_knn, search_radius"]}
{"id": "C89", "title": "The LP^P metric of the documentation is searched exactly", "statement": "With the example's metric_lp_p<P>, search_nn, search_knn and search_radius answer as a linear scan with the sum of |x - y|^P would.", "quantifier": "every P, every tree, every query, in exact arithmetic", "why_tests_cant": "The example runs P = 3 once and compares with nothing.", "anchors": ["examples/kd_tree/kd_tree_custom_metric.cpp: metric_lp_p"]}
{"id": "C90", "title": "The torus metric of the documentation is searched exactly", "statement": "With the example's metric_t2_squared and coordinates within [0, 1], search_nn, search_knn and search_radius answer as a linear scan with the sum of the squared lengths of the shorter arcs would.", "quantifier": "every dimension, every tree, every query, in exact arithmetic", "why_tests_cant": "The example prints a few answers and compares with nothing.", "anchors": ["examples/kd_tree/kd_tree_custom_metric.cpp: metric_t2_squared"]}
{"id": "C91", "title": "The counting visitor of the documentation counts the points compared", "statement": "search_nearest with the example's search_nn_counter finds the nearest neighbour, and its count is the number of distinct points whose distance was computed; each point that was not looked at is strictly farther than the answer.", "quantifier": "every tree, every metric as in C88, every query, in exact arithmetic", "why_tests_cant": "The example prints the count and compares with nothing.", "anchors": ["examples/kd_tree/kd_tree_custom_search_visitor.cpp: search_nn_counter"]}
{"id": "C92", "title": "A metric that takes the root of the sum is searched exactly", "statement": "The L2 distance itself, with |x| for a single coordinate, gives the nearest neighbour.  (Refuted: the tree adds up |x| over the coordinates, which exceeds the root; the comment of the example gives performance as the reason not to do this, but the answers are wrong.)", "quantifier": "every tree and query", "why_tests_cant": "The metric is not part of the library, but nothing prevents writing it.", "anchors": ["examples/kd_tree/kd_tree_custom_metric.cpp: comment at the top"]}
{"id": "C93", "title": "A kd_forest of one tree answers like a linear scan", "statement": "When enough leaves are visited, search_nearest of a kd_forest with a single tree finds exactly the points within a radius (radius visitor) and the k nearest neighbours, in order (k-nearest-neighbours visitor), with their squared distances.", "quantifier": "every point set, query, radius and k, every random vector, in exact arithmetic", "why_tests_cant": "The test of the forest compares one nearest neighbour search with a linear scan.", "anchors": ["examples/pico_understory/pico_understory/kd_forest.hpp: search_nearest", "examples/pico_understory/pico_understory/internal/kd_tree_priority_search.hpp: priority_search_nearest_euclidean", "src/pico_tree/pico_tree/internal/search_visitor.hpp: search_radius, search_knn"]}
{"id": "C94", "title": "A kd_forest reports each point within a radius once per tree", "statement": "When enough leaves are visited, the radius visitor is given every point within the radius exactly as often as there are trees, and no other point.", "quantifier": "every number of trees, point set, query and radius, in exact arithmetic", "why_tests_cant": "Radius searches in a forest are not tested.", "anchors": ["examples/pico_understory/pico_understory/kd_forest.hpp: search_nearest", "src/pico_tree/pico_tree/internal/search_visitor.hpp: search_radius"]}
{"id": "C95", "title": "More trees or more leaves never give a farther neighbour", "statement": "With the same random vectors, a kd_forest with further trees returns a neighbour that is not farther than without them.  In a forest with a single tree a larger bound on the number of leaves returns a neighbour that is not farther.", "quantifier": "every forest, query and bound on the leaves, in exact arithmetic", "why_tests_cant": "Recall is only measured for whole data sets.", "anchors": ["examples/pico_understory/pico_understory/kd_forest.hpp: search_nn", "examples/pico_understory/pico_understory/internal/kd_tree_priority_search.hpp: priority_search_nearest_euclidean"]}
{"id": "C96", "title": "Python programs never read freed memory and nothing is freed twice", "statement": "A Python program that makes trees (KdTree), searches, indexes and slices DArrays, takes memoryviews and array views, and drops references at any time never reads memory that was freed, as long as it does not use load_kd_tree or iterate a DArray and does not move memory others look at by searching into an existing output.  Without such outputs there is no condition left.  No program whatsoever frees memory twice.", "quantifier": "every sequence of operations, deletion of unreferenced objects at any time after they became unreferenced", "why_tests_cant": "Whether freed memory is read depends on the order in which references are dropped; tests hold on to everything.", "anchors": ["src/pyco_tree/pico_tree/_pyco_tree/def_kd_tree.cpp: py::init, keep_alive", "src/pyco_tree/pico_tree/_pyco_tree/def_darray.cpp: __getitem__, keep_alive", "src/pyco_tree/pico_tree/_pyco_tree/darray.hpp: darray_impl"]}
{"id": "C97", "title": "A loaded tree can be used like one that was made", "statement": "The result of load_kd_tree keeps its points alive.  (Refuted: the binding has no keep_alive.  When the program drops the points, a search reads freed memory.  Proved instead: all is well if the program itself never drops the points.)", "quantifier": "every sequence of operations", "why_tests_cant": "The test that loads a tree holds on to the points.", "anchors": ["src/pyco_tree/pico_tree/_pyco_tree/def_kd_tree.cpp: load_kd_tree"]}
{"id": "C98", "title": "Elements obtained by iterating over a DArray stay valid", "statement": "An array obtained from iterating over the result of search_radius or search_box can be used as long as it is referenced, as one obtained by indexing.  (Refuted: it keeps nothing alive; once the DArray and the iterator are gone it points to freed memory, as in list(tree.search_radius(...)).  Proved instead: all is well if the program holds on to the DArray.)", "quantifier": "every sequence of operations", "why_tests_cant": "The tests iterate over a variable.", "anchors": ["src/pyco_tree/pico_tree/_pyco_tree/def_darray.cpp: __iter__", "src/pyco_tree/pico_tree/_pyco_tree/darray.hpp: darray_impl::iterator"]}
{"id": "C99", "title": "Searching into an existing output leaves views of it usable", "statement": "Views of an output array or DArray stay valid when it is given to another search.  (Refuted: an array that is resized, or a vector that has to grow, moves; an iterator of a DArray that became shorter reads past its end.)  Refilling a DArray with as many results as fit into it allocates and frees nothing.", "quantifier": "every state and every number of results", "why_tests_cant": "The tests do not look at old views after a search.", "anchors": ["src/pyco_tree/pico_tree/_pyco_tree/kd_tree.hpp: search_knn, search_radius, search_box, ensure_size", "src/pico_tree/pico_tree/internal/search_visitor.hpp: search_radius"]}
{"id": "C100", "title": "The Python module leaks nothing", "statement": "After any program, when all references are dropped, every object is deleted and all memory is freed.  At any time, all memory that is not freed belongs to exactly one object.", "quantifier": "every sequence of operations", "why_tests_cant": "Leaks are not observed by tests.", "anchors": ["src/pyco_tree/pico_tree/_pyco_tree/def_kd_tree.cpp", "src/pyco_tree/pico_tree/_pyco_tree/def_darray.cpp", "src/pyco_tree/pico_tree/_pyco_tree/darray.hpp"]}
{"id": "C101", "title": "What the Python module shares and what it copies", "statement": "A KdTree and a loaded tree read the memory of the array of points itself; d[i] and the elements of an iteration are views of the memory of the DArray; d[a:b] is a copy that shares no memory; the result of search_knn is new memory that stays allocated as long as the result.", "quantifier": "every reachable state", "why_tests_cant": "Sharing cannot be seen from values that are not changed.", "anchors": ["src/pyco_tree/pico_tree/_pyco_tree/py_array_map.hpp", "src/pyco_tree/pico_tree/_pyco_tree/darray.hpp: operator*, copy", "src/pyco_tree/pico_tree/_pyco_tree/kd_tree.hpp: search_knn"]}
{"id": "C102", "title": "Trees over signed integers are exact as long as nothing overflows", "statement": "With a signed integer scalar type and coordinates small enough for sums of four coordinates and for the distances, trees can be made with the median and sliding midpoint rules, search_nn, search_knn and search_radius answer as a linear scan would, and any visitor sees what it would see with whole numbers of unlimited size.", "quantifier": "every signed type, point set, query, bucket size; the metrics L1 and L2 squared; whatever overflow would do", "why_tests_cant": "The tests use integers in one container test only; that no intermediate result overflows concerns all inputs.", "anchors": ["src/pico_tree/pico_tree/internal/kd_tree_builder.hpp", "src/pico_tree/pico_tree/internal/kd_tree_search.hpp", "src/pico_tree/pico_tree/metric.hpp: metric_l1, metric_l2_squared"]}
{"id": "C103", "title": "Box searches are right for every integer type", "statement": "search_box returns exactly the points within the box, also for unsigned scalars and for coordinates whose differences overflow, once the tree was made.", "quantifier": "every integer type, whatever overflow does, every point set and box, every splitter rule and metric without wrap-around dimensions", "why_tests_cant": "Needs inputs near the ends of the type.", "anchors": ["src/pico_tree/pico_tree/internal/kd_tree_search.hpp: search_box", "src/pico_tree/pico_tree/kd_tree.hpp: search_box"]}
{"id": "C104", "title": "Nearest neighbours are right for all values of a signed integer type", "statement": "search_nn with L2 squared returns the nearest neighbour whatever the coordinates are.  (Refuted: distances overflow; with wrap-around a point at 65536 is preferred to one at 1.  In C++ the overflow is undefined.)", "quantifier": "every point set and query of 32-bit integers", "why_tests_cant": "Tests use small coordinates.", "anchors": ["src/pico_tree/pico_tree/metric.hpp: metric_l2_squared", "src/pico_tree/pico_tree/internal/kd_tree_search.hpp: search_nearest_euclidean"]}
{"id": "C105", "title": "Distances of unsigned points are right modulo two to the number of bits", "statement": "With an unsigned scalar type and L2 squared, each reported point is a point of the set at most once, and its distance is the true one modulo 2^bits.", "quantifier": "every unsigned type, tree and query", "why_tests_cant": "The subtraction of unsigned coordinates wraps around.", "anchors": ["src/pico_tree/pico_tree/metric.hpp: metric_l2_squared, r1_distance", "src/pico_tree/pico_tree/kd_tree.hpp: search_nn, search_radius"]}
{"id": "C106", "title": "Searches are right for unsigned points", "statement": "With an unsigned scalar type and small coordinates search_nn returns the nearest neighbour and search_radius finds all points within the radius.  (Refuted: left_max + right_min - v - v > 0 holds unless the sum is 0, so the left child is taken for the one that holds the query and the right one is skipped when it begins too far to the left of the query; not even a point equal to the query is found.)", "quantifier": "every set of points and query with coordinates up to 1000 in unsigned int", "why_tests_cant": "No test uses an unsigned scalar.", "anchors": ["src/pico_tree/pico_tree/internal/kd_tree_search.hpp: search_nearest_euclidean"]}
{"id": "C107", "title": "Trees over unsigned points can be made unless too many points coincide", "statement": "With an unsigned scalar type, the median and sliding midpoint rules and at most max_leaf_size equal points, construction ends with a tree.  If all points are equal and there are more of them than max_leaf_size, it uses an uninitialised variable: no side of the box is longer than numeric_limits::lowest(), which is 0.", "quantifier": "every unsigned type, point set, bucket size", "why_tests_cant": "An uninitialised variable often holds a harmless value.", "anchors": ["src/pico_tree/pico_tree/internal/box.hpp: max_side", "src/pico_tree/pico_tree/internal/kd_tree_builder.hpp: splitter_rule_traits"]}
{"id": "C108", "title": "The midpoint rule does not work with integers", "statement": "With an integer scalar type midpoint_max_side splits at the lower side of the box (scalar_type(0.5) is 0), so construction with max_leaf_size never gives a tree when there are more points than that; when nothing overflows it recurses for ever.", "quantifier": "every integer type, point set, bucket size", "why_tests_cant": "A test would not end.", "anchors": ["src/pico_tree/pico_tree/internal/kd_tree_builder.hpp: midpoint_max_side"]}
{"id": "C109", "title": "Approximate searches with integers keep their guarantee", "statement": "search_nn with an approximation ratio e returns a point whose distance is at most e times the smallest one.  (Refuted: 1 / e is 0 in integers.  For e of 2 or more, search_nn reports distance 0 for some point and search_radius finds nothing, whatever the radius.)", "quantifier": "every integer type, tree, query and e", "why_tests_cant": "Approximate searches are tested with floating point numbers only.", "anchors": ["src/pico_tree/pico_tree/internal/search_visitor.hpp: search_approximate_nn, search_approximate_radius"]}
{"id": "C110", "title": "Trees made of nodes in memory behave as values", "statement": "A program builds, loads, moves, assigns, destroys and queries kd_tree objects in any order. As long as it does not query an object that was moved from, every call returns what it would return if each object simply held its tree as a value: building or loading one tree, moving it, or destroying another one never changes the answers of any tree, no dangling, null or uninitialised pointer is followed, and no call has undefined behaviour that the value semantics does not have.", "quantifier": "every sequence of operations, any number of objects, every point set, build rule, metric, visitor and saved file", "why_tests_cant": "Corruption through a stale pointer or a reused chunk depends on the order of operations and on what the memory happens to hold.", "anchors": ["src/pico_tree/pico_tree/internal/kd_tree_builder.hpp: build_kd_tree_impl", "src/pico_tree/pico_tree/internal/kd_tree_data.hpp: read_node, write_node", "src/pico_tree/pico_tree/internal/kd_tree_node.hpp", "src/pico_tree/pico_tree/internal/memory.hpp: chunk_allocator", "src/pico_tree/pico_tree/internal/kd_tree_search.hpp", "src/pico_tree/pico_tree/kd_tree.hpp: kd_tree"]}
{"id": "C111", "title": "Programs that never overwrite a tree give all memory back", "statement": "When all kd_tree objects of a program are destroyed, all memory of their nodes has been freed, provided no tree was move-assigned to an object that still held one (which loses memory, C36).", "quantifier": "every sequence of operations that ends normally", "why_tests_cant": "Leaks do not fail tests.", "anchors": ["src/pico_tree/pico_tree/internal/memory.hpp: list_pool_resource, chunk_allocator", "src/pico_tree/pico_tree/kd_tree.hpp: kd_tree"]}
{"id": "C112", "title": "Node memory in use is exactly what the trees need", "statement": "At any time the number of chunks of 256 nodes in use is the sum over the trees held of the number of their nodes divided by 256 and rounded up; objects that were moved from hold none.", "quantifier": "every sequence of operations as in C110 and C111", "why_tests_cant": "Tests do not look at the memory of a tree.", "anchors": ["src/pico_tree/pico_tree/internal/memory.hpp: chunk_allocator", "src/pico_tree/pico_tree/internal/kd_tree_data.hpp: kd_tree_data"]}
{"id": "C113", "title": "A tree that was moved from can still be queried", "statement": "A kd_tree object answers queries after it was moved from. (Refuted: the root pointer stays, the index vector is empty and the query reads past its end; where the moved members are only views it works until the new owner is destroyed and then reads freed memory.)", "quantifier": "every tree and query", "why_tests_cant": "It may appear to work.", "anchors": ["src/pico_tree/pico_tree/kd_tree.hpp: kd_tree(kd_tree&&)", "src/pico_tree/pico_tree/internal/kd_tree_data.hpp: kd_tree_data"]}
{"id": "C114", "title": "Answers are right at the end of any program with tree objects", "statement": "After any sequence of builds, moves, assignments, destructions and queries, an object that holds the tree over a point set answers search_nn, search_knn and search_radius exactly right for that point set.", "quantifier": "every such sequence, every point set, query, rule, metric with exact arithmetic", "why_tests_cant": "Combines memory, construction and search for unbounded sequences.", "anchors": ["src/pico_tree/pico_tree/kd_tree.hpp: kd_tree, search_nn, search_knn, search_radius", "src/pico_tree/pico_tree/internal/memory.hpp: chunk_allocator"]}
{"id": "C115", "title": "Searching a tree whose points were modified is safe", "statement": "If the points a kd_tree refers to are modified or points are appended after it was made, or a saved tree is loaded with other points than it was made from (at least as many, same dimension), every search still ends without undefined behaviour. It hands each of the original point numbers to the visitor at most once, with the distance of the point as it is now, and never looks at appended points. A saved tree loaded with other points is exactly the saved tree referring to these points; nothing is checked.", "quantifier": "every tree, every modification that does not remove points, every metric, visitor and query", "why_tests_cant": "There are arbitrarily many ways to modify points, and a stray read does not show.", "anchors": ["src/pico_tree/pico_tree/kd_tree.hpp: kd_tree, load, search_nearest", "src/pico_tree/pico_tree/internal/kd_tree_search.hpp", "src/pico_tree/pico_tree/internal/space_wrapper.hpp: space_wrapper"]}
{"id": "C116", "title": "How wrong the nearest neighbour of a stale tree can be", "statement": "After such a modification search_nn returns a point with its present distance, and that distance is at most the larger of the former and the present distance of every other point: the answer is no worse than if every point were at the farther of its two positions.", "quantifier": "every tree, modification and query with exact arithmetic", "why_tests_cant": "The bound concerns all points and all modifications.", "anchors": ["src/pico_tree/pico_tree/kd_tree.hpp: search_nn", "src/pico_tree/pico_tree/internal/kd_tree_search.hpp: search_nearest_euclidean, search_nearest_topological"]}
{"id": "C117", "title": "How wrong the k nearest neighbours of a stale tree can be", "statement": "After such a modification search_knn returns min(k, number of original points) distinct original points, sorted by and with their present distances, and each is at most as far as the farther of the former and the present distance of every point that is not returned.", "quantifier": "every tree, modification, k and query with exact arithmetic", "why_tests_cant": "The bound concerns all points and all modifications.", "anchors": ["src/pico_tree/pico_tree/kd_tree.hpp: search_knn", "src/pico_tree/pico_tree/internal/kd_tree_search.hpp: search_nearest_euclidean, search_nearest_topological"]}
{"id": "C118", "title": "What a radius search with a stale tree finds", "statement": "After such a modification search_radius reports only points within the radius, with their present distances, each once, and it reports every point that is within the radius at its former and at its present position.", "quantifier": "every tree, modification, radius and query with exact arithmetic", "why_tests_cant": "The bound concerns all points and all modifications.", "anchors": ["src/pico_tree/pico_tree/kd_tree.hpp: search_radius", "src/pico_tree/pico_tree/internal/kd_tree_search.hpp: search_nearest_euclidean, search_nearest_topological"]}
{"id": "C119", "title": "What a box search with a stale tree finds", "statement": "After such a modification search_box reports every point whose former and present positions are both in the box, and only points whose former or present position is, each once.", "quantifier": "every Euclidean tree, modification and box", "why_tests_cant": "The bound concerns all points and all modifications.", "anchors": ["src/pico_tree/pico_tree/kd_tree.hpp: search_box", "src/pico_tree/pico_tree/internal/kd_tree_search.hpp: search_box"]}
{"id": "C120", "title": "A tree keeps up with modifications of its points", "statement": "Searches are exact for the points as they are at the time of the search. (Refuted: after moving a point search_nn misses it, search_box misses it or reports it though it left the box; after appending points search_knn returns entries that belong to no point; after removing points a search reads beyond the end.)", "quantifier": "every tree, modification and query", "why_tests_cant": "Nothing checks or documents that the points must stay unchanged.", "anchors": ["src/pico_tree/pico_tree/kd_tree.hpp: search_nn, search_knn, search_box", "src/pico_tree/pico_tree/internal/kd_tree_search.hpp"]}
{"id": "C121", "title": "A tree of n points has at most 2n - 1 nodes", "statement": "With the median and sliding midpoint rules a kd_tree over n points has at most n leaves and exactly one branch less than leaves, hence at most 2n - 1 nodes, which take at most (2n - 1) / 256 chunks, rounded up. With max_leaf_depth d every rule, the midpoint rule included, makes a tree of at most 2^(d+1) - 1 nodes.", "quantifier": "every point set, every stop condition and start bounds", "why_tests_cant": "The bound holds for every arrangement of points; tests look at a few.", "anchors": ["src/pico_tree/pico_tree/kd_tree.hpp: kd_tree", "src/pico_tree/pico_tree/internal/kd_tree_builder.hpp: build_kd_tree_impl::create_node", "src/pico_tree/pico_tree/internal/memory.hpp: chunk_allocator"]}
{"id": "C122", "title": "How deep the recursion of the construction goes", "statement": "The construction recurses exactly as deep as the tree is high: it fails with any smaller stack and gives the same tree with any larger one. With max_leaf_size m the median and sliding midpoint rules never go deeper than n - m branches for n > m points.", "quantifier": "every point set, rule, stop condition and start bounds", "why_tests_cant": "The depth depends on the arrangement of all points.", "anchors": ["src/pico_tree/pico_tree/internal/kd_tree_builder.hpp: build_kd_tree_impl::create_node", "src/pico_tree/pico_tree/kd_tree.hpp: kd_tree"]}
{"id": "C123", "title": "Trees are logarithmically deep", "statement": "The depth of a kd_tree with the default rule is logarithmic in the number of points. (Refuted: among k points at one place the sliding midpoint rule separates one at a time, so the tree is at least k - m branches deep; n coincident points give depth exactly n - m, and the construction handles 1/2 (n(n+1) - m(m+1)) points in all, which is quadratic. Duplicates, such as invalid returns of a scanner at the origin, overflow the stack.)", "quantifier": "every point set with duplicates, every max_leaf_size and start bounds; no constant makes it logarithmic", "why_tests_cant": "Test data has no large group of duplicates.", "anchors": ["src/pico_tree/pico_tree/internal/kd_tree_builder.hpp: splitter_rule_traits<sliding_midpoint_max_side_t>, create_node", "src/pico_tree/pico_tree/kd_tree.hpp: kd_tree"]}
{"id": "C124", "title": "The median rule is logarithmically deep and takes O(n log n)", "statement": "With the median rule and max_leaf_size m, n <= m * 2^h points give a tree of at most h levels of branches, and at most n * h points are handed to std::nth_element in all, whatever the arrangement of the points, duplicates included.", "quantifier": "every point set, max_leaf_size and start bounds", "why_tests_cant": "The bound holds for every arrangement of points.", "anchors": ["src/pico_tree/pico_tree/internal/kd_tree_builder.hpp: splitter_rule_traits<median_max_side_t>, create_node"]}
{"id": "C125", "title": "The size of the file a tree is saved to", "statement": "A saved kd_tree takes 16 bytes, n indices, two scalars per dimension, and per leaf one byte and two indices, per branch one byte and an int with two scalars (four for topological metrics) padded to the alignment of the scalar. With the median and sliding midpoint rules this is linear in n.", "quantifier": "every tree, index type, scalars of 4 or 8 bytes", "why_tests_cant": "Tests save one tree and load it again.", "anchors": ["src/pico_tree/pico_tree/kd_tree.hpp: save", "src/pico_tree/pico_tree/internal/kd_tree_data.hpp: write, write_node", "src/pico_tree/pico_tree/internal/kd_tree_node.hpp"]}
{"id": "C126", "title": "Answers do not depend on how a tree was made", "statement": "Two kd_trees over the same points, in any order and made with any rule, stop condition, start bounds, index type and standard library, give the same answers: search_nn the same distance, search_knn the same distances in the same order, search_radius and search_box the same points, and the same indices if the order of the points is the same.", "quantifier": "every two trees over a permutation of the same points, every query, k and radius, for exact arithmetic", "why_tests_cant": "A test compares one tree with a reference, not all trees with each other.", "anchors": ["src/pico_tree/pico_tree/kd_tree.hpp: kd_tree, search_nn, search_knn, search_radius, search_box", "src/pico_tree/pico_tree/internal/kd_tree_builder.hpp: max_leaf_size_t, max_leaf_depth_t, bounds_from_space_t, bounds_t"]}
{"id": "C127", "title": "The searches of a tree agree with each other", "statement": "search_nn gives the distance of the first entry of search_knn; search_knn with fewer neighbors gives the first distances of search_knn with more; a sorted search_radius and search_knn agree on their common beginning, and a neighbor found by search_knn is found by search_radius if and only if it is nearer than the radius.", "quantifier": "every tree, query, k and radius, for exact arithmetic", "why_tests_cant": "Each search has its own code and its own tests.", "anchors": ["src/pico_tree/pico_tree/kd_tree.hpp: search_nn, search_knn, search_radius", "src/pico_tree/pico_tree/internal/search_visitor.hpp: search_nn, search_knn, search_radius"]}
{"id": "C128", "title": "More points never make an answer worse", "statement": "When points are added and a tree is made again, the distance of search_nn and the distance at each place of the answer of search_knn never increase, search_knn never finds fewer neighbors, and search_radius finds the points it found before and some of the added ones.", "quantifier": "every two trees, one over the points of the other and more, every query, k and radius, for exact arithmetic", "why_tests_cant": "It relates two trees that may have nothing in common.", "anchors": ["src/pico_tree/pico_tree/kd_tree.hpp: search_nn, search_knn, search_radius"]}
{"id": "C129", "title": "Approximate searches of floating point points", "statement": "With factor e >= 1 an approximate search_nn reports a point whose computed distance is at most e times the smallest computed distance. (Refuted, by e = 1 and C41. It holds up to the rounding of the incremental distances, C41, and of the reciprocal of e: (1 - 2u) d_i <= e (slack * d_j + smallest number). The same holds for each of the k entries of search_knn against each point that it does not report, and search_radius reports only points nearer than the radius and all that are nearer than the radius over e up to the same rounding. The reported distance is the rounded product of the computed distance and the rounded reciprocal. With e = 1 the approximate searches give the answers of the exact ones, bit for bit.)", "quantifier": "every IEEE binary format with at least two bits, every point set and query whose distances neither overflow nor underflow, every factor up to 2^(emax-2), every k and radius", "why_tests_cant": "The rounding of the factor and that of the distances accumulate only in rare inputs.", "anchors": ["src/pico_tree/pico_tree/kd_tree.hpp: search_nn, search_knn, search_radius (with e)", "src/pico_tree/pico_tree/internal/search_visitor.hpp: search_approximate_nn, search_approximate_knn, search_approximate_radius"]}
{"id": "C130", "title": "Searches of any tree in range are safe", "statement": "search_nn, search_knn, search_radius, their approximate versions and every custom visitor end and read nothing out of bounds on any kd_tree whose indices, leaf ranges and split dimensions are in range, however wrong the tree is otherwise; they hand the visitor only points of the space with their distances, at most as many as the leaves hold. The same for search_box if the ranges are in order too. (That a loaded tree is in range is refuted: load checks nothing, so that one changed byte of a file makes search_nn read outside of the points.)", "quantifier": "every tree in range, every metric, visitor and query; one witness for the refutation", "why_tests_cant": "Tests only search trees that were built from the points.", "anchors": ["src/pico_tree/pico_tree/kd_tree.hpp: load, search_nn, search_knn, search_radius, search_box", "src/pico_tree/pico_tree/internal/kd_tree_search.hpp", "src/pico_tree/pico_tree/internal/kd_tree_data.hpp: load, read_node"]}
{"id": "C131", "title": "Searches are exact on every tree of the points", "statement": "All searches give the answers of a scan of all points on every tree that holds each point in one leaf and whose branches bound their points, whoever made it: with loose bounds, empty leaves, leaves of different sizes, any root box that encloses the points. Trees made by kd_tree are such trees, and load gives back what was saved. (That being in range suffices is refuted.)", "quantifier": "every such tree, metric, query, k, radius and box, for exact arithmetic", "why_tests_cant": "Tests only search trees that kd_tree made.", "anchors": ["src/pico_tree/pico_tree/kd_tree.hpp: search_nn, search_knn, search_radius, search_box, load", "src/pico_tree/pico_tree/internal/kd_tree_search.hpp", "src/pico_tree/pico_tree/internal/kd_tree_data.hpp"]}
{"id": "C132", "title": "What can be loaded is what save writes", "statement": "If load succeeds on a file, the bytes it consumed are, up to padding bytes, the bytes that save writes for the loaded tree: different files give different trees.", "quantifier": "every byte string, index type, byte order, both categories of metrics; every scalar type in which a value has one representation (integers; floats but NaN)", "why_tests_cant": "A statement about all byte strings, not only those that save writes.", "anchors": ["src/pico_tree/pico_tree/kd_tree.hpp: save, load", "src/pico_tree/pico_tree/internal/kd_tree_data.hpp: load, save, read_node, write_node", "src/pico_tree/pico_tree/internal/stream_wrapper.hpp: read, write"]}
{"id": "C133", "title": "Loading ends, and how deep it recurses", "statement": "Loading ends on every stream. If it succeeds, the number of bytes it consumed is given by the numbers of points, dimensions, leaves and branches of the loaded tree, which also bounds the depth of the recursion by the length of the file. (That the depth is bounded otherwise, e.g. by the number of points, is refuted: for each k a file of 25 + 22 k bytes with no point at all makes load recurse k deep, enough to overflow the stack.)", "quantifier": "every stream, index type, scalar type and category; every depth k for the refutation", "why_tests_cant": "Tests load only files that save wrote.", "anchors": ["src/pico_tree/pico_tree/kd_tree.hpp: load", "src/pico_tree/pico_tree/internal/kd_tree_data.hpp: load, read_node", "src/pico_tree/pico_tree/internal/stream_wrapper.hpp: read"]}
{"id": "C134", "title": "Files of floating point trees", "statement": "A kd_tree of float or double points that is saved and loaded again is the same to the bit, in either byte order. The same for any tree of doubles, infinities and NaN included, and a file without NaN that loads is the one that save writes.", "quantifier": "every point set with finite coordinates, rule, stop condition, start bounds and index type; every tree data; every byte string", "why_tests_cant": "Rounding, subnormals, signed zeros and infinities at the edges of the format are never all saved in a test.", "anchors": ["src/pico_tree/pico_tree/kd_tree.hpp: save, load", "src/pico_tree/pico_tree/internal/kd_tree_data.hpp", "src/pico_tree/pico_tree/internal/stream_wrapper.hpp: read, write"]}
{"id": "C135", "title": "Levels and separation of cover trees", "statement": "In every cover_tree the level of a child is one below that of its parent, and different children of a node are farther apart than the base to the power of their level.", "quantifier": "every point set, order of insertion, base and fuel; every scalar type whose order is total on distances and powers (floats without NaN, infinities allowed); every metric that is symmetric on the points; std::pow, std::log and rounding arbitrary", "why_tests_cant": "Levels are not observable through searches: a tree that violates the invariants still answers correctly, only slowly.", "anchors": ["examples/pico_understory/pico_understory/cover_tree.hpp: cover_tree", "examples/pico_understory/pico_understory/internal/cover_tree_builder.hpp: insert, insert_covered, find_parent, rebalance, extract, strip, push_child, node_to_parent", "examples/pico_understory/pico_understory/internal/cover_tree_base.hpp: child_distance"]}
{"id": "C136", "title": "Cover trees cover", "statement": "Every point below a node of a cover_tree is at most the base to the power of the node's level away from the node, for every base greater than one. (Refuted for the base 1.3, which the comments mention as the fastest: seven points on a line give a node of level 11 (17.92) with a child 20.5 away. It holds for every base of at least two; then the stored max_distance of a node is at most its cover distance as well.)", "quantifier": "every point set with a (pseudo)metric, order of insertion and base of at least two, for exact arithmetic; Euclidean distances of real points in particular; one witness for the refutation", "why_tests_cant": "The violations appear only after several promotions of leaves to roots in an unlucky random order.", "anchors": ["examples/pico_understory/pico_understory/cover_tree.hpp: cover_tree", "examples/pico_understory/pico_understory/internal/cover_tree_builder.hpp: insert, rebalance, remove_leaf, node_to_parent, update_max_distance", "examples/pico_understory/pico_understory/internal/cover_tree_base.hpp: cover_distance, level"]}
{"id": "C137", "title": "Cover trees are nearest ancestor trees", "statement": "Every point below a child c of a node of a cover_tree is at least as near to c as to every other child of the node, for every base greater than one. (Refuted for the base 1.3, as C136: rebalancing skips children that are too far away to matter if the tree were covering. It holds for every base of at least two.)", "quantifier": "every point set with a (pseudo)metric, order of insertion and base of at least two, for exact arithmetic; one witness for the refutation", "why_tests_cant": "Searches stay correct without the invariant.", "anchors": ["examples/pico_understory/pico_understory/cover_tree.hpp: cover_tree", "examples/pico_understory/pico_understory/internal/cover_tree_builder.hpp: find_parent, rebalance, extract, strip", "examples/pico_understory/pico_understory/internal/cover_tree_base.hpp: child_distance"]}
{"id": "C138", "title": "Searches look only where they have to", "statement": "The branches of a kd_tree cut the space into one part per leaf, with the leaf's points in its part. A search with any visitor opens the leaf whose part contains the query first, each leaf at most once, and a further leaf only if some place in its part is no further from the query than the bound that the visitor gives at that moment. The visitor is shown exactly the points of the opened leaves, in order.", "quantifier": "every point set, query, stop condition, start bounds and rule but the midpoint rule (which leaves leaves empty); L1, L2Squared and every user-defined Euclidean metric with zero distance from a value to itself; every visitor, monotone or not; exact scalars", "why_tests_cant": "Tests compare answers, which are the same when no leaf is ever skipped; only the time differs.", "anchors": ["src/pico_tree/pico_tree/kd_tree.hpp: kd_tree, search_nearest", "src/pico_tree/pico_tree/internal/kd_tree_search.hpp: search_nearest_euclidean", "src/pico_tree/pico_tree/internal/kd_tree_builder.hpp: create_node"]}
{"id": "C139", "title": "The bytes of a saved tree", "statement": "The file of a tree is: the dimension and the number of points in eight bytes each, the indices, the minimum and maximum of the box, then the nodes from the root, left side first: a byte 1 and the range of a leaf, or a byte 0, the split dimension in four bytes and the stored scalars of a branch. Saving a tree gives the same file every time. (Refuted for doubles: every branch takes four bytes of uninitialised memory along, so two files of the same tree may differ and leak memory; these bytes are the only ones. It holds for scalars of four bytes.)", "quantifier": "every tree (built, loaded or neither), index type, byte order, scalar type of four or eight bytes, both categories of metrics; one witness for the refutation", "why_tests_cant": "Tests read files only with the code that wrote them, and padding bytes are zero by chance.", "anchors": ["src/pico_tree/pico_tree/kd_tree.hpp: save", "src/pico_tree/pico_tree/internal/kd_tree_data.hpp: save, write, write_node", "src/pico_tree/pico_tree/internal/kd_tree_node.hpp: kd_tree_branch_single, kd_tree_branch_double, kd_tree_leaf", "src/pico_tree/pico_tree/internal/stream_wrapper.hpp: write"]}
{"id": "C140", "title": "Searches on circles in floating point", "statement": "With rounded coordinates and distances, search_nn, search_knn and search_radius for metric_so2, metric_se2_squared and products of circles return answers that are correct for the computed distances up to a factor 1 + O((height + dimension) * 2^-prec); on a single circle exactly. A computed distance on the circle is within 2^-prec of the true one, on a torus of n circles within n(n+3)/2 * 2^-prec, so the returned neighbour is the nearest up to 2 * 2^-prec. When all coordinates are below one the returned neighbour is at most three times as far as the nearest. On a coarse grid all answers are those of exact arithmetic. (Refuted: when a coordinate is one, which the documentation allows, the returned neighbour may be farther than the nearest by any factor.)", "quantifier": "every IEEE binary format, point set and query with circular coordinates in [0, 1] and others of bounded size, every stop condition, splitting rule but midpoint_max_side, every user bounds, k, radius; one witness for the refutation", "why_tests_cant": "The tests compare a few searches with a linear scan; rounding of a sum that is updated down the tree and the behaviour next to the ends of the interval need particular digits.", "anchors": ["src/pico_tree/pico_tree/distance.hpp: s1_distance, squared_s1_distance", "src/pico_tree/pico_tree/metric.hpp: metric_so2, metric_se2_squared, one_space_s1", "src/pico_tree/pico_tree/internal/kd_tree_search.hpp: search_nearest_topological", "src/pico_tree/pico_tree/internal/search_visitor.hpp: search_nn, search_knn, search_radius", "examples/kd_tree/kd_tree_custom_metric.cpp"]}
{"id": "C141", "title": "Cover trees in floating point", "statement": "With rounded coordinates and distances, search_nn, search_knn and search_radius of a cover_tree for metric_l1 and metric_l2 return genuine, distinct points with their computed distances, in order; a returned point is farther than a point that was left out only within a relative error O(n * 2^-prec) of the distance plus one of the extent of the point set (and, for metric_l2, the square root of the smallest number). When coordinates are multiples of a power of two that leave room for sums, all answers for metric_l1 are exact. (Refuted: that the returned neighbour is a nearest one for the computed distances. d(q, node) - max_distance is rounded: with points 3.75 and 2.5 times 2^52, -5 and a little above -3, the search for -3 returns -5, although a point is at the distance 2^-51; a search of radius one finds nothing.)", "quantifier": "every IEEE binary format, point set and query of bounded size, insertion order, base, fuel, k and radius; std::pow, std::log and rounding arbitrary, std::sqrt correctly rounded; one witness for the refutation", "why_tests_cant": "The error depends on the extent of the points, not on the distance that is sought, so tests with points of similar size do not see it.", "anchors": ["examples/pico_understory/pico_understory/cover_tree.hpp: search_nn, search_knn, search_radius, search_nearest", "examples/pico_understory/pico_understory/internal/cover_tree_builder.hpp: update_max_distance", "examples/pico_understory/pico_understory/metric.hpp: metric_l2", "src/pico_tree/pico_tree/metric.hpp: metric_l1"]}
{"id": "C142", "title": "Python searches on floating point arrays", "statement": "KdTree(pts, metric, leaf) with metric L1 or L2Squared succeeds, and search_knn, search_radius and their approximate forms return, whatever the schedule of the threads, one answer per query that is correct for the computed distances up to a factor 1 + 2 (2 (npts - leaf) + sdim) 2^-prec (times the approximation factor), sorted where documented, with rows padded by index 0 beyond the number of points. On a coarse grid, such as whole numbers, the answers of the exact searches are those of exact arithmetic; search_box is always exact. (Refuted: that search_knn(queries, 1) returns the point with the least computed distance.)", "quantifier": "every IEEE binary format (float32 and float64 in particular), every contiguous pair of arrays of bounded size, every k, radius, factor of at least one and fair schedule; one witness for the refutation", "why_tests_cant": "Tests use a few random arrays, where rounding does not decide.", "anchors": ["src/pyco_tree/pico_tree/_pyco_tree/kd_tree.hpp: kd_tree, search_knn, search_radius, search_box", "src/pyco_tree/pico_tree/_pyco_tree/def_kd_tree.cpp: search_knn, search_radius, search_box", "src/pico_tree/pico_tree/internal/kd_tree_search.hpp: search_nearest_euclidean"]}
{"id": "C143", "title": "Points with infinite coordinates or NaN", "statement": "When coordinates may be infinite, a tree can be built and holds every point once if in one dimension all coordinates are of moderate size. search_box treats every point alike and is exact, also for infinite boxes. search_nn and search_radius answer as if the points with an infinite coordinate were not there; so does search_knn for its first entries, but its result has min(k, npts) entries: the ones beyond the number of finite points are not written, so that a fresh vector reads index 0 at distance 0. With no finite point search_nn leaves the index as it was. (Refuted: that construction is always defined - three points at infinity on a line, or two NaN, read an uninitialised variable; that all entries of search_knn are distinct points with their distances; that one NaN leaves the searches for the other points intact.)", "quantifier": "every IEEE binary format, point set with finite coordinates of bounded size and any others infinite, every finite query, stop condition, start bounds, rule but midpoint_max_side, k, range and radius; one witness for each refutation", "why_tests_cant": "Tests use finite random coordinates only.", "anchors": ["src/pico_tree/pico_tree/kd_tree.hpp: kd_tree, search_nn, search_knn, search_radius, search_box", "src/pico_tree/pico_tree/internal/box.hpp: max_side, fit", "src/pico_tree/pico_tree/internal/kd_tree_builder.hpp: splitter_rule_traits, create_node", "src/pico_tree/pico_tree/internal/kd_tree_search.hpp: search_nearest_euclidean", "src/pico_tree/pico_tree/internal/search_visitor.hpp: search_nn, search_knn, search_radius"]}
{"id": "C144", "title": "When the midpoint rule ends, and depth by the spread of the points", "statement": "With exact arithmetic a construction with midpoint_max_side and a maximum leaf size m ends exactly when no more than m points are at one place. If no more than m points are pairwise closer than delta in every coordinate, and the box to start with is shorter than delta * 2^k_d in dimension d, the tree holds every point once and its depth is at most the sum of the k_d, for midpoint_max_side and for sliding_midpoint_max_side; with the latter, if up to M points are that close, the depth is at most that sum plus M - m. The same holds for floating point coordinates of size at most 2^e with 2 * 2^k_d in place of 2^k_d when delta is at least 2^(e + 6 - prec). (Refuted: that points at different places suffice in floating point. The middle of 1 and the next double rounds to 1, the right half is the whole box again, and midpoint_max_side with leaves of one point recurses until the stack is exhausted.)", "quantifier": "every number of points, dimension, placement, start bounds that enclose the points, index type, leaf size, distance and exponents; every IEEE binary format; one witness for the refutation", "why_tests_cant": "A test builds trees of a few sizes; that recursion ends at all, and how deep it goes, depends on distances between points that random data does not have.", "anchors": ["src/pico_tree/pico_tree/internal/kd_tree_builder.hpp: splitter_rule_traits, midpoint_max_side, sliding_midpoint_max_side, create_node", "src/pico_tree/pico_tree/internal/box.hpp: max_side", "src/pico_tree/pico_tree/kd_tree.hpp: kd_tree"]}
{"id": "C145", "title": "A construction that throws leaves nothing behind", "statement": "When memory runs out, or a stream throws, at any point while a kd_tree is constructed from points or loaded, the exception reaches the caller, every node made so far has been freed, and all other trees are as they were and answer as before. A program that catches such exceptions behaves like the one without the failed constructions: same answers, and all memory freed once its trees are gone. Without a fault nothing is thrown.", "quantifier": "every program that constructs, loads, moves, swaps, destroys and queries kd_trees, every point at which each construction may fail (vectors, each chunk of nodes, each copy of a box, each read), every scalar type and metric", "why_tests_cant": "A test cannot let every single allocation fail; the state after a failure deep in the recursion is not observable without instrumenting the allocator.", "anchors": ["src/pico_tree/pico_tree/internal/memory.hpp: list_pool_resource, chunk_allocator", "src/pico_tree/pico_tree/internal/kd_tree_builder.hpp: build_kd_tree, create_node", "src/pico_tree/pico_tree/internal/kd_tree_data.hpp: load, read, read_node", "src/pico_tree/pico_tree/kd_tree.hpp: kd_tree, load"]}
{"id": "C146", "title": "Memory a construction needs", "statement": "If memory for n more chunks of 256 nodes is available, and memory otherwise suffices, the construction of a kd_tree throws exactly when n is less than the number of its nodes divided by 256, rounded up.", "quantifier": "every program before, every point set, stop condition, start bounds, rule and n", "why_tests_cant": "The threshold must be tried for every number of nodes; tests build trees that fit into one or two chunks.", "anchors": ["src/pico_tree/pico_tree/internal/memory.hpp: chunk_allocator::allocate", "src/pico_tree/pico_tree/internal/kd_tree_builder.hpp: build_kd_tree"]}
{"id": "C147", "title": "Loading from a stream that has exceptions enabled", "statement": "If the caller enables exceptions of the stream given to load(), then a load either yields the same tree as without them, or throws because the stream ended early, leaving nothing behind. In particular every proper prefix of a saved tree, the empty one included, is rejected with an exception. (Compare the refuted claim for streams without exceptions, where a truncated file is read as indeterminate values.)", "quantifier": "every saved tree, every point of truncation, every program before; the first part for every sequence of bytes", "why_tests_cant": "A saved tree can be cut at any byte; tests only load complete files.", "anchors": ["src/pico_tree/pico_tree/kd_tree.hpp: load", "src/pico_tree/pico_tree/internal/kd_tree_data.hpp: load, read, read_node", "src/pico_tree/pico_tree/internal/stream_wrapper.hpp: read"]}
{"id": "C148", "title": "Searches compiled with fused multiply-add", "statement": "If the compiler contracts any of the sums d + x * x in distances and in box distances into fused multiply-adds, search_nn, search_knn and search_radius with metric_l2_squared still return what they should, up to a factor 1 + 2 (3h + n + 1) u on the distances that program computes (n dimensions, tree of height h, unit roundoff u), and these distances have relative error at most 2 (n + 3) u. The coordinates of the query must be equal to those of a point or far enough from them for squares not to underflow. Without contraction the answers are those of the other properties. If all coordinates are on a grid coarse enough for sums of squares of differences to be representable, the answers are exact, without a factor, whatever is contracted. (Refuted: that contraction never changes the nearest neighbour.)", "quantifier": "every choice of the sums that are contracted (per dimension and per depth), every IEEE binary format, point set, query, rule but midpoint_max_side, stop condition, k, radius", "why_tests_cant": "Whether and where sums are contracted depends on compiler, target and flags; tests run one build.", "anchors": ["src/pico_tree/pico_tree/metric.hpp: internal::sum, metric_l2_squared", "src/pico_tree/pico_tree/distance.hpp: squared, squared_r1_distance", "src/pico_tree/pico_tree/internal/kd_tree_search.hpp: search_nearest_euclidean", "src/pico_tree/pico_tree/kd_tree.hpp: search_nn, search_knn, search_radius"]}
{"id": "C149", "title": "Searches over 8- and 16-bit integers", "statement": "With coordinates of an integer type of at most 16 bits, signed or unsigned, search_nn, search_knn and search_radius with metric_l1 and metric_l2_squared are exact as long as the largest possible distance, the number of dimensions times the largest term, is less than the largest value of the type: arithmetic is done in int, so that sums and differences of coordinates cannot overflow, unlike with 32-bit unsigned coordinates. Otherwise metric_l2_squared reports the squared distance modulo the width of the type, if no two coordinates are more than 46340 apart; if they are, which uint16_t allows, the square overflows an int, and any value may be reported. (Refuted: that the nearest neighbour is right without room for the distances; uint8_t coordinates of at most 20 are enough for a wrong one.)", "quantifier": "every width from 2 to 16 bits, signed and unsigned, point set, query, number of dimensions, start bounds, rule but midpoint_max_side, stop condition, k, radius; one witness for the refutation", "why_tests_cant": "No test uses a type that is promoted to int, and one that did would need points whose distances just fit.", "anchors": ["src/pico_tree/pico_tree/distance.hpp: r1_distance, squared, squared_r1_distance", "src/pico_tree/pico_tree/metric.hpp: internal::sum, metric_l1, metric_l2_squared", "src/pico_tree/pico_tree/internal/kd_tree_search.hpp: search_nearest_euclidean", "src/pico_tree/pico_tree/kd_tree.hpp: search_nn, search_knn, search_radius"]}
{"id": "C150", "title": "What the checks of the test suite accept", "statement": "With exact arithmetic: the brute force search used by the tests returns the k nearest points; the check of k nearest neighbours passes for every kd_tree, query and k of at least 1, the check of box searches for every kd_tree and box, boxes that wrap around the circle included; the check of radius searches passes exactly if no point lies at exactly the radius from the query, because it counts the closed ball while the search returns the open one. Conversely, any results that pass have the distances of the k nearest points; are, if free of duplicates, all points of the closed ball; are, if free of duplicates, exactly the points in the box. (Refuted: that results which pass are right. Duplicates go unnoticed in radius and box searches, and wrong indices in searches for k nearest neighbours.) Without points or with k = 0 the brute force search is undefined.", "quantifier": "every point set, query, k, radius, box, metric (L1, squared L2, SO(2), squared SE(2); boxes: any metric), rule, stop condition and start bounds, any tolerant comparison of floats that accepts equal values; one witness for each refutation", "why_tests_cant": "The statement is about the tests themselves: which correct results they reject and which wrong ones they accept.", "anchors": ["test/pico_tree/common.hpp: search_knn, test_knn, test_radius, test_box", "src/pico_tree/pico_tree/kd_tree.hpp: search_knn, search_radius, search_box"]}
{"id": "C151", "title": "The measured precision of the kd_forest", "statement": "The example that measures how often a kd_forest finds the nearest neighbour: without a file of ground truth it computes, for every query, a nearest point with its distance, and writes them; every later run reads exactly these back, whatever its data and parameters are. If the file has more entries than there are queries, queries are read out of bounds; otherwise the number of agreements is exactly the number of entries whose index the forest returns for that query. With exact arithmetic, if all leaves may be visited and the nearest neighbour of every query is unique, the precision is one. (Refuted: the same without uniqueness. Indices are compared, and with ties forest and tree may return different nearest points.)", "quantifier": "every point set, queries, leaf sizes, number of trees, reflections, leaves visited, content of other files; one witness for the refutation", "why_tests_cant": "The example needs data sets that are not part of the repository and is not tested; that a file left by another run is used shows up only as a wrong precision.", "anchors": ["examples/kd_forest/kd_forest.cpp: run_kd_tree, run_kd_forest, run_dataset", "examples/pico_understory/pico_understory/kd_forest.hpp: search_nn", "examples/pico_toolshed/pico_toolshed/format/format_bin.hpp: write_bin, read_bin"]}
{"id": "C152", "title": "How many leaf ranges there are", "statement": "With the sliding midpoint and median rules, leaf_ranges() of a tree of n points returns: with max_leaf_depth_t(d), at least min(d + 1, n) and at most min(2^d, n) ranges, with the median rule exactly min(2^d, n); with max_leaf_size_t(m), at least n / m and at most n. (Refuted: that the default rule gives 2^d ranges whenever there are that many points, as the test of leaf_ranges expects of 100 random points and d = 2.)", "quantifier": "every point set, depth or leaf size representable in the index type, start bounds, all metrics; one witness for the refutation", "why_tests_cant": "The number of leaves of one random point set says nothing about others; a point far from the rest is enough to get fewer.", "anchors": ["src/pico_tree/pico_tree/internal/kd_tree_builder.hpp: max_leaf_depth_t, max_leaf_size_t, is_leaf, create_node", "src/pico_tree/pico_tree/kd_tree.hpp: leaf_ranges", "test/pico_tree/kd_tree_test.cpp: TEST(KdTreeTest, LeafRanges)"]}
