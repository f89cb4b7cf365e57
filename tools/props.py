#!/usr/bin/env python3
"""Regenerates /verif/properties.jsonl (kept as a script so the list stays easy to edit)."""
import json, os
B="src/pico_tree/pico_tree/"
P=[]
def p(title, statement, quantifier, why, anchors):
    P.append(dict(id="C%02d"%(len(P)+1), title=title, statement=statement, quantifier=quantifier,
                  why_tests_cant=why, anchors=anchors))

KD=B+"kd_tree.hpp"; BU=B+"internal/kd_tree_builder.hpp"; SE=B+"internal/kd_tree_search.hpp"
VI=B+"internal/search_visitor.hpp"; DA=B+"internal/kd_tree_data.hpp"; BO=B+"internal/box.hpp"
ME=B+"metric.hpp"; DI=B+"distance.hpp"; SG=B+"internal/segment.hpp"; MEM=B+"internal/memory.hpp"
ST=B+"internal/stream_wrapper.hpp"
PY="src/pyco_tree/pico_tree/_pyco_tree/"
UN="examples/pico_understory/pico_understory/"; TS="examples/pico_toolshed/pico_toolshed/"

p("Construction stores every point exactly once",
  "After constructing a kd_tree, the tree refers to each of the n input points exactly once: the index ranges of its leaves, read left to right, are consecutive, start at 0, end at n, and the stored index sequence is a permutation of 0..n-1.",
  "every point set (n >= 1, any dimension >= 1, duplicates allowed), every stop condition, splitter rule and start bounds for which construction returns, every behaviour of std::partition / std::nth_element allowed by the C++ standard",
  "Unit tests build a few random clouds; lost or duplicated indices would depend on particular tie patterns at split values and on the standard library's unspecified element order.",
  [KD+": kd_tree::kd_tree", BU+": build_kd_tree, build_kd_tree_impl::create_node", BU+": splitter_*_max_side"])
p("Construction terminates without undefined behaviour (sliding midpoint and median rules)",
  "For a non-empty point set and max_leaf_size >= 1 (or any max_leaf_depth), constructing a kd_tree with the sliding midpoint or the median rule always finishes, never reads an uninitialised split dimension, never dereferences an end iterator and never trips an assertion.",
  "every point set including all-duplicate and collinear ones, every leaf size >= 1 or depth representable in the index type, every conforming std::partition/nth_element",
  "Termination over all inputs cannot be sampled; degenerate clouds (all points equal, one dimension constant) are the dangerous ones.",
  [BU+": splitter_sliding_midpoint_max_side, splitter_median_max_side, create_node, is_leaf", BO+": max_side"])
p("max_leaf_size is respected",
  "With stop condition max_leaf_size_t(m), m representable in the index type, every leaf range of the tree holds at most m points.",
  "every point set, every m, all three rules, every execution that returns",
  "Tests check a handful of sizes on random data.",
  [BU+": max_leaf_size_t, is_leaf, create_node"])
p("max_leaf_depth is respected",
  "With stop condition max_leaf_depth_t(d), no leaf is deeper than d (depth 0 is the root), for all three rules, and construction terminates for all three rules.",
  "every point set, every depth d representable in the index type, all three rules",
  "A depth bound over all inputs and rules is a universal claim; tests look at d = 0 and d = 2 on tiny sets.",
  [BU+": max_leaf_depth_t, is_leaf, create_node"])
p("Midpoint rule with max_leaf_size terminates",
  "Constructing a kd_tree with midpoint_max_side and max_leaf_size_t(m), m >= 1, terminates.  (Expected by the interface; refuted: more than m coincident points make construction recurse forever.)",
  "every point set",
  "Tests never build the midpoint rule over duplicate points; non-termination cannot be observed by a finite test.",
  [BU+": splitter_midpoint_max_side, create_node, is_leaf"])
p("No empty leaves with the sliding midpoint and median rules",
  "Trees built with the sliding midpoint or median rule contain no empty leaf, hence at most n leaves; with max_leaf_size every branch has at least two points.",
  "every non-empty point set, every stop condition",
  "Emptiness would need a specific tie pattern at the split value.",
  [BU+": splitter_sliding_midpoint_max_side, splitter_median_max_side"])
p("Median rule builds balanced trees",
  "With the median rule the two children of every branch hold numbers of points that differ by at most one, and with max_leaf_size_t(m) no leaf lies deeper than the least h with n <= m*2^h.",
  "every point set and leaf size",
  "A bound on all tree shapes; tests look at one or two shapes.",
  [BU+": splitter_median_max_side, create_node"])
p("leaf_ranges partitions the points",
  "leaf_ranges() returns, in depth-first order, non-empty index ranges that are pairwise disjoint, whose concatenation is a permutation of all point indices, one per leaf, each no larger than max_leaf_size when that stop condition is used (sliding midpoint and median rules).",
  "every point set and stop condition",
  "Universal over inputs; tests check one small example.",
  [KD+": leaf_ranges", DA+": leaf_ranges, insert_leaf_range"])
p("leaf_ranges is defined for every tree",
  "leaf_ranges() 'returns the index range for all non-empty leaves' of any constructed tree.  (Refuted: on a tree with an empty leaf, which the midpoint rule produces, it follows null child pointers.)",
  "every tree constructible with the midpoint rule",
  "Undefined behaviour may go unnoticed in a test run, and the existing test happens to have no empty leaf.",
  [DA+": insert_leaf_range", KD+": leaf_ranges"])
p("search_nn returns a nearest neighbour",
  "For metric_l1 and metric_l2_squared, search_nn reports an index whose distance to the query is minimal over all points, together with exactly that distance (exact arithmetic).",
  "every point set, every query point (inside or outside the bounds), every dimension, stop condition, rule, start bounds (even bounds that do not contain the points), every conforming std algorithm",
  "Tests compare with brute force on a few random clouds; pruning errors only show for particular query/box configurations.",
  [KD+": search_nn", SE+": search_nearest_euclidean", VI+": search_nn"])
p("search_knn returns the k nearest neighbours in order",
  "For metric_l1 and metric_l2_squared, search_knn(x, k, knn) returns min(k, n) distinct points sorted by distance with their exact distances, and every point not returned is at least as far as every returned one.",
  "every point set, query, k >= 1, dimension, stop condition, rule, bounds",
  "Brute-force comparison is only ever done on samples; ties and k > n are rarely sampled.",
  [KD+": search_knn", SE+": search_nearest_euclidean", VI+": search_knn, insert_sorted"])
p("search_knn into a caller-supplied range larger than the point set",
  "search_knn(x, begin, end) with k = end-begin > n fills the first n slots with all points sorted by distance, sets only the distance of the last slot to numeric_limits::max() and leaves every other slot and every other field untouched.",
  "every point set, query, k > n and every previous content of the range",
  "Depends on the prior content of the output buffer, which tests do not vary.",
  [KD+": search_knn(P_, RandomAccessIterator_, RandomAccessIterator_)", VI+": search_knn"])
p("search_knn is defined for k = 0",
  "search_knn(x, 0, knn) returns an empty result.  (Refuted: the visitor writes through std::prev(end) of an empty range.)",
  "every tree and query",
  "Undefined behaviour need not fail a test.",
  [KD+": search_knn", VI+": search_knn constructor"])
p("search_radius returns exactly the open ball",
  "For metric_l1 and metric_l2_squared, search_radius(x, r, n) returns each point whose distance to x is strictly smaller than r exactly once with its exact distance, and nothing else.",
  "every point set, query, radius (including 0 and negative), dimension, stop condition, rule, bounds",
  "Pruning and boundary behaviour over all configurations cannot be sampled.",
  [KD+": search_radius", SE+": search_nearest_euclidean", VI+": search_radius"])
p("search_radius includes points exactly at the radius",
  "A point whose distance equals the radius is 'within' the radius and is returned, as the reference check in the unit tests (<=) suggests.  (Refuted: the comparison is strict.)",
  "every point set, query and radius",
  "Random floating point test data practically never hits equality.",
  [VI+": search_radius::operator()", "test/pico_tree/common.hpp: test_radius"])
p("sort=true only reorders",
  "search_radius(..., sort = true) returns the same neighbours as sort = false, ordered from closest to farthest.",
  "every search and every conforming std::sort",
  "std::sort is unstable, so any order of ties is allowed.",
  [KD+": search_radius", VI+": search_radius::sort"])
p("search_box returns exactly the points in the box (Euclidean metrics)",
  "search_box(min, max, idxs) returns exactly the indices of the points p with min <= p <= max in every coordinate, each once; for an inverted box the result is empty.",
  "every point set, every min/max (inside, outside, inverted), dimension, stop condition, rule, start bounds that contain the points; every totally ordered scalar including NaN-free IEEE floating point values",
  "The 'fully contained' shortcut and the running box are only wrong for specific nestings of query and cells.",
  [KD+": search_box", SE+": search_box", BO+": contains"])
p("search_box is exact for any user supplied start bounds",
  "search_box is exact no matter which bounds_t were passed at construction.  (Refuted: if a point lies outside the given bounds, search_box can report points outside the query box.)",
  "every bounds_t argument",
  "Tests only use bounds that enclose the points.",
  [BU+": bounds_t, box_from_bounds", SE+": search_box"])
p("Approximate nearest neighbour guarantee",
  "search_nn(x, e, nn) with e >= 1 reports a point whose true distance is at most e times the distance of the true nearest neighbour, and the reported distance is the true distance of the reported point divided by e.",
  "every point set, query, e >= 1, tree shape; metric_l1 and metric_l2_squared",
  "An approximation factor over all inputs cannot be sampled.",
  [KD+": search_nn(x, e, nn)", VI+": search_approximate_nn"])
p("Approximate k nearest neighbours guarantee",
  "search_knn(x, k, e, knn) with e >= 1 returns min(k, n) distinct points, sorted, with distances divided by e, and for each i the true distance of the i-th result is at most e times the distance of the true i-th nearest neighbour.",
  "every point set, query, k >= 1, e >= 1, tree shape",
  "Rank-wise approximation over all inputs cannot be sampled.",
  [KD+": search_knn(x, k, e, knn)", VI+": search_approximate_knn"])
p("Approximate radius search is sandwiched",
  "search_radius(x, r, e, n) with e >= 1 returns no point at distance >= r and no point twice, returns every point with distance <= r/e (and < r), and reports distances divided by e.",
  "every point set, query, radius, e >= 1, tree shape",
  "Universal claim about what may be dropped.",
  [KD+": search_radius(x, radius, e, n)", VI+": search_approximate_radius"])
p("Custom visitor contract",
  "For any user visitor whose max() never increases while it is being fed, search_nearest calls it at most once per point, with the point's true distance, and every point it was not called for is farther than the final max().",
  "every visitor (any state, any callback), every point set, query, tree shape; metrics that are sums of per-coordinate monotone terms (metric_l1, metric_l2_squared, LP^P)",
  "Quantifies over all user code behind the visitor interface.",
  [KD+": search_nearest", SE+": search_nearest_euclidean"])
p("Reported neighbours are genuine for every metric and scalar type",
  "Every (index, distance) pair reported by search_nn, search_knn, search_radius is a point of the space with distance bit-for-bit equal to metric(query, point); no index is reported twice.  This holds for every metric and for floating point scalars; queries and distances may be NaN or infinite, the points themselves only have to be ordered by < (no NaN coordinates).",
  "every metric, scalar type (an order on the coordinates of the points, no algebraic laws), point set, query, tree",
  "Holds for every scalar bit pattern, which tests cannot enumerate.",
  [SE+": search_nearest_euclidean, search_nearest_topological", VI+": search_nn, search_knn, search_radius"])
p("Nearest neighbour search is exact for metric_lpinf",
  "With metric_lpinf (max norm) search_nn, search_knn and search_radius are exact like for the other metrics.  (Refuted: node pruning sums per-dimension offsets, which is not a lower bound of the max norm.)  What does hold: the reported nearest neighbour is at most sdim times as far as the true one.",
  "every point set and query",
  "Tests of LPInf only evaluate the metric itself; a miss needs a query outside a cell in two dimensions.",
  [ME+": metric_lpinf", SE+": search_nearest_euclidean (line 91 NOTE)", "README.md: metrics list"])
p("Nearest neighbour search is exact for metric_lninf",
  "With metric_lninf (min norm) search_nn is exact.  (Refuted.)",
  "every point set and query",
  "Tests only evaluate the metric itself.",
  [ME+": metric_lninf", SE+": search_nearest_euclidean"])
p("Nearest neighbour searches are exact on the circle (metric_so2)",
  "For one-dimensional points and queries with coordinates in [0,1] and metric_so2, search_nn, search_knn and search_radius are exact with respect to the circular distance min(|x-y|, 1-|x-y|), including neighbours across the 0/1 seam.",
  "every point set in [0,1], every query in [0,1], every tree shape",
  "Wrap-around pruning is wrong only for specific cell/query configurations.",
  [ME+": metric_so2", SE+": search_nearest_topological", SG+": segment_s1::distance"])
p("Nearest neighbour searches are exact on SE(2) (metric_se2_squared)",
  "For three-dimensional points whose third coordinate is in [0,1], search_nn, search_knn and search_radius with metric_se2_squared are exact with respect to dx^2 + dy^2 + s1(dtheta)^2.",
  "every such point set and query, every tree shape",
  "As for the circle; needs mixed Euclidean and circular pruning.",
  [ME+": metric_se2_squared", SE+": search_nearest_topological"])
p("0 and 1 are the same point of the circle",
  "With metric_so2, a search_radius around 0 and around 1 returns the same neighbours with the same distances.",
  "every point set in [0,1] and every radius",
  "Documented identification; tests sample one cloud.",
  [ME+": topological_space_tag documentation, metric_so2"])
p("search_box is exact on topological spaces, including wrap-around",
  "With metric_so2 / metric_se2_squared, search_box returns exactly the points inside the query box, where in circular dimensions min > max denotes the arc from min through 1/0 to max; no assertion of the library fires.",
  "every point set, every query box (min <= max in the non-circular dimensions), every tree shape and bounds containing the points",
  "Interaction of containment, intersection and wrap-around over all cells.",
  [SE+": search_box::intersects_left/right", BO+": metric_box_map", SG+": segment_s1::contains"])
p("Results do not depend on how the tree was built",
  "Two trees over the same points built with any stop conditions, rules and bounds (and any standard library) return the same set of neighbours for search_radius, the same set for search_box and the same list of distances for search_nn / search_knn.",
  "every pair of build configurations",
  "Pairs of configurations are never compared by tests.",
  [KD+": kd_tree::kd_tree, search_nn, search_knn, search_radius, search_box"])
p("Built-in metrics are what they say",
  "metric_l1, metric_lpinf and metric_so2 (coordinates in [0,1]) are symmetric, non-negative, zero on equal points and satisfy the triangle inequality; metric_l2_squared and metric_se2_squared are symmetric, non-negative and vanish exactly on equal (identified) points; metric(x) of a scalar is the metric distance of a one-coordinate difference x.",
  "all points of every dimension",
  "Algebraic laws over all inputs.",
  [ME+": metric_l1, metric_l2_squared, metric_lpinf, metric_so2, metric_se2_squared", DI+": r1_distance, s1_distance"])
p("Segment distance is the distance to the nearest element of the segment",
  "segment_r1(min,max).distance(x) and segment_s1(min,max).distance(x) equal the minimum over all y contained in the segment of the corresponding one-dimensional distance between x and y; it is attained.",
  "all segments (including wrapping ones) and all x (in [0,1] for s1)",
  "Infimum over a continuum.",
  [SG+": segment_r1, segment_s1"])
p("save followed by load reproduces the tree",
  "Loading the bytes written by save yields the same indices, root box and node structure, whatever the padding bytes contained, consumes exactly the bytes written, and hence every later search returns the same results.",
  "every tree, Euclidean or topological nodes, every dimension, any content of struct padding, any bytes following in the stream",
  "Tests round-trip one tree.",
  [DA+": load, save, read_node, write_node", ST+": read, write", KD+": load, save"])
p("A truncated file is rejected by load",
  "Loading a file that was cut short (e.g. by a crash during save) reports an error.  (Refuted: no read is checked; every proper prefix of a saved tree makes load use indeterminate values.)",
  "every tree and every proper prefix (crash point)",
  "Quantifies over all crash points; behaviour is undefined.",
  [ST+": stream_wrapper::read", DA+": load, read_node"])
p("Node allocation never aliases",
  "All node pointers handed out by one chunk_allocator are distinct, lie inside chunks it owns and stay valid (not freed) until it is destroyed.",
  "every number of allocations and chunk size >= 1",
  "History quantifier.",
  [MEM+": chunk_allocator::allocate, list_pool_resource::allocate"])
p("Node memory is freed exactly once",
  "Over any history of constructing, allocating from, move-constructing, move-assigning and destroying allocators, no chunk is freed twice or used after free by its owner, and once all are destroyed all chunks have been freed.  (First part proved; second refuted: move assignment to a non-empty allocator leaks its chunks.)",
  "every history",
  "Leaks and double frees depend on histories; tests do not assign trees.",
  [MEM+": list_pool_resource move operations, release", KD+": kd_tree move assignment"])
p("Python: .pkd header round trip and rejection",
  "A header written by save_kd_tree for metric L1, L2Squared or LPInf is read back as the same metric; a file of at least 16 bytes that does not start with such a header (wrong signature, unsupported version, unknown metric string) raises an error.  (For shorter files that agree so far the rejection is refuted: the missing bytes are read uninitialised.)",
  "every byte string",
  "All possible file contents.",
  [PY+"kd_tree.hpp: pkd_header"])
p("Python: batched queries are independent of the OpenMP schedule",
  "search_knn(queries, k) run in parallel writes to row i exactly what a sequential search for query i writes, whatever the number of threads and interleaving.",
  "every interleaving of the threads, every number of queries and k",
  "Schedules cannot be enumerated.",
  [PY+"kd_tree.hpp: search_knn, search_radius, search_box"])
p("Python: DArray indexing and slicing follow Python semantics",
  "DArray[i] returns element i (or n+i for negative i) or raises IndexError exactly when Python's list would; DArray[a:b:s] returns the same elements in the same order as list slicing, including negative steps although the implementation computes in unsigned 64-bit arithmetic.",
  "every size below 2^63, every index and slice",
  "All 64-bit indices and slices.",
  [PY+"def_darray.cpp: __getitem__", PY+"darray.hpp: copy"])
p("Python: row- and column-major arrays denote the same points",
  "For a C-contiguous array points are rows, for an F-contiguous array points are columns; either way point i of the tree has the coordinates at the right memory offsets and the tree never reads outside the array buffer; other arrays are rejected.  (For F-ordered arrays this is refuted when there is a single point: such a column is C-contiguous as well and is read as many one-dimensional points.)",
  "every array shape and layout",
  "All shapes.",
  [PY+"py_array_map.hpp: make_map", PY+"core.hpp: array_layout"])
p("Exactness survives floating point rounding",
  "With scalar double the nearest neighbour search still returns a point whose computed distance is minimal.  (Refuted in two or more dimensions: the incremental box distance can round above the distance of the true nearest neighbour.  Up to a factor of 1+2(2h+n)u, where h is the height of the tree, n the number of dimensions and u the rounding unit, the answers of search_nn, search_knn and search_radius are right.)",
  "every double input",
  "A violating input is a needle in a haystack for random tests.",
  [SE+": search_nearest_euclidean lines 93-99"])
p("max_leaf_size larger than the index type",
  "max_leaf_size_t takes a size_t; any value >= n builds a single leaf.  (Refuted: the value is narrowed to the index type, so e.g. 2^32-1 with int indices becomes -1, and no node ever becomes a leaf.)",
  "every size_t value",
  "Tests use small values.",
  [BU+": build_kd_tree_impl constructor (line 329), is_leaf"])
p("Queries leave the search state as they found it",
  "The running node-box offsets (search_nearest) and the running box (search_box) are restored after every visited subtree, so the rest of the traversal sees exactly the offsets and box of its own node.",
  "every tree, query and visitor",
  "A missing restore only matters for particular traversals.",
  [SE+": search_nearest_euclidean, search_nearest_topological, search_box"])
p("Longest side, first on ties",
  "Every branch splits in the dimension in which its cell is longest, the first such dimension on ties, and the midpoint rule splits exactly in the middle, so no cell of a cube-bounded tree is more elongated than 2:1.",
  "every point set and bounds",
  "Universal over cells.",
  [BO+": max_side", BU+": splitter_midpoint_max_side"])
p("Bounding boxes are tight",
  "Without user bounds the root box is the smallest axis-aligned box containing all points, and every branch stores the exact extreme coordinates of its children's points in the split dimension (rules without empty leaves).",
  "every point set",
  "Universal over inputs.",
  [B+"internal/space_wrapper.hpp: compute_bounding_box", BO+": fit", BU+": create_node"])
out=os.path.join(os.path.dirname(os.path.dirname(os.path.abspath(__file__))),"properties.jsonl")
if os.path.exists(os.path.join(os.path.dirname(os.path.abspath(__file__)),"props_more.py")):
    exec(open(os.path.join(os.path.dirname(os.path.abspath(__file__)),"props_more.py")).read())
with open(out,"w") as f:
    for x in P: f.write(json.dumps(x)+"\n")
print(len(P))
