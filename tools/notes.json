{
 "C05": {
  "note": "The statement is refuted (C05_refuted): every set of more than m coincident points diverges. Also proved: no undefined behaviour while it runs."
 },
 "C09": {
  "note": "The statement is refuted; proved exactly when it fails (an empty leaf exists) and that it works otherwise."
 },
 "C13": {
  "note": "Refuted for every tree and query; C13_k_zero_undefined shows it is always undefined behaviour."
 },
 "C15": {
  "note": "Refuted: the ball is open (see C14)."
 },
 "C18": {
  "note": "Refuted with a two-point witness; C17 holds when the bounds enclose the points."
 },
 "C24": {
  "note": "Exactness is refuted; the factor-sdim guarantee is proved for search_nn and search_radius."
 },
 "C25": {
  "note": "Refuted with a two-point witness."
 },
 "C42": {
  "note": "Refuted: whenever the value wraps to a negative index no construction returns, for every point set and rule."
 },
 "C34": {
  "note": "Refuted in the strongest form: for every tree and every proper prefix of its file the load is undefined."
 },
 "C36": {
  "note": "No double free is proved for every history; that all memory is freed is refuted (move assignment to a non-empty allocator leaks, for every continuation) and proved for histories without such assignments."
 },
 "C37": {
  "note": "Proved for files of at least 16 bytes; rejection of shorter files refuted (C37_short_file_refuted)."
 },
 "C40": {
  "note": "Proved; the F-order single column is the one case read differently (C40_single_column_refuted)."
 },
 "C50": {
  "note": "Refuted; C47_search_knn gives the exact content of the surplus entries for all inputs."
 },
 "C51": {
  "note": "Refuted with a two-query witness; C38_search_knn_new gives shape and strides for all inputs."
 },
 "C52": {
  "note": "Both parts refuted; C38_search_knn describes what is written for all inputs."
 },
 "C53": {
  "note": "dtype, contiguity, odd box checks proved; dimension check proved for 2-D and 3-D trees and refuted for others."
 },
 "C54": {
  "note": "Proved for three or more axes and non-contiguous matrices; for one-dimensional contiguous arrays always undefined (so refuted)."
 },
 "C55": {
  "note": "Refuted with a witness."
 },
 "C41": {
  "note": "Refuted for double by four points in the plane (C41_refuted). What holds instead is proved for every IEEE format, L1 and squared L2, median and sliding midpoint rules: answers are right up to the factor 1+2(2h+n)u (h height of the tree, n dimensions, u=2^-precision), also in terms of exact distances."
 },
 "C57": {
  "note": "For L1 and squared L2; trees of the midpoint rule excluded."
 },
 "C60": {
  "note": "Refuted for double (overflow); the general description of what is returned is C60_untouched."
 },
 "C63": {
  "note": "Proved for exact arithmetic and real numbers; refuted for double (coinciding points first after the shuffle)."
 },
 "C64": {
  "note": "Metrics with a triangle inequality; L2 over real numbers with an exact square root."
 },
 "C65": {
  "note": "Refuted by a witness."
 },
 "C79": {
  "note": "Refuted by a witness."
 },
 "C82": {
  "note": "Refuted for truncated files by a witness; C82_truncated_* say in general what is read, C82_header what the header leads to."
 },
 "C84": {
  "note": "Refuted by a witness."
 },
 "C85": {
  "note": "Over the real numbers (standard library Reals axioms)."
 },
 "C87": {
  "note": "Refuted by witnesses; C87_missing_pose and C87_short_pose hold in general."
 },
 "C88": {
  "note": "metric_fits (Spec.v) spells out the condition on the metric."
 },
 "C92": {
  "note": "Refuted by three points in the plane; C88 says what a metric has to satisfy."
 },
 "C96": {
  "note": "The conditions on existing outputs are `careful` (SpecLife.v): an array that is resized, or a DArray whose results do not fit, has no views and iterators. C96_new_outputs has no such condition."
 },
 "C97": {
  "note": "Refuted as stated; C97_load_kept is what holds."
 },
 "C98": {
  "note": "Refuted as stated; C98_iterate_kept is what holds (it also covers loaded trees)."
 },
 "C99": {
  "note": "The three refutations are the ways it fails; C96 and C98 prove that nothing goes wrong when results fit or there are no views; C99_refill_in_place is the allocation claim."
 },
 "C100": {
  "note": "Memory is: arrays, vectors of DArrays. The nodes and indices of trees are C35 and C36."
 },
 "C102": {
  "note": "int_tree and int_query (SpecInt.v) spell out 'small enough'. Types narrower than int: C149."
 },
 "C104": {
  "note": "Refuted by a witness; C102 gives the condition under which it holds. Overflow is modelled as wrapping around here; C104_nn_genuine and C104_radius_genuine say what is reported then."
 },
 "C106": {
  "note": "Refuted by witnesses."
 },
 "C109": {
  "note": "Refuted as stated; the other two theorems say in general what happens for e >= 2."
 },
 "C110": {
  "note": "What is left of the space, indices and box of an object that was moved from is an arbitrary function (moved_parts). std_in_place: std::partition and std::nth_element keep the length of their range."
 },
 "C111": {
  "note": "C111_leak shows that the hypothesis is needed."
 },
 "C113": {
  "note": "Refuted by two witnesses."
 },
 "C114": {
  "note": "Trees loaded from files are excluded (no_load); for them see C33, C34 and C110."
 },
 "C115": {
  "note": "with_points: the same tree object, referring to other points; modified: same dimension, at least as many points."
 },
 "C116": {
  "note": "The sentinel is returned only if no distance is below the largest scalar."
 },
 "C117": {
  "note": "If points were appended, the entries after the first min(k, original number) are not covered; see C120."
 },
 "C119": {
  "note": "Euclidean metrics (box search of a topological tree tests other conditions, C16)."
 },
 "C120": {
  "note": "Refuted by three witnesses."
 },
 "C122": {
  "note": "The fuel of the model is the number of nested calls of create_node that are allowed."
 },
 "C123": {
  "note": "Refuted for every constant; the other two theorems say in general how deep it gets. The number of points handed to std::partition per branch is counted (split_work), not time."
 },
 "C124": {
  "note": "Counts the points handed to std::nth_element (split_work), not time."
 },
 "C125": {
  "note": "Scalars aligned to their size, size_t of 8 bytes and int of 4."
 },
 "C126": {
  "note": "Box search for Euclidean metrics; order laws only, so for floats as well."
 },
 "C127": {
  "note": "Prefixes of search_knn are C126_k_nearest_neighbours with one tree twice."
 },
 "C128": {
  "note": "For exact arithmetic."
 },
 "C129": {
  "note": "The statement without rounding terms is refuted (C129_refuted); the theorems give it with them, for every IEEE format, L1 and L2 squared."
 },
 "C130": {
  "note": "Box search for Euclidean metrics. The safety is proved; that load establishes its premise is refuted by a witness (C130_loaded_trees_refuted)."
 },
 "C131": {
  "note": "Box search for Euclidean metrics. tree_of is the premise; in_range alone is refuted."
 },
 "C132": {
  "note": "Padding bytes are not read by load, so the theorem quantifies over them existentially."
 },
 "C133": {
  "note": "The depth bound by the number of points is refuted for every k."
 },
 "C134": {
  "note": "Rule other than midpoint_max_side for the trees made from points (C05); C134_any_tree covers all data. NaNs are one value."
 },
 "C135": {
  "note": "Level minus one or its inverse plus one, as the code computes them: in exact arithmetic the same (C136)."
 },
 "C136": {
  "note": "C136_statement (all bases above one) is refuted by computation with base 1.3; C136_covering needs base >= 2."
 },
 "C137": {
  "note": "C137_statement (all bases above one) is refuted by computation with base 1.3; C137_nearest_ancestor needs base >= 2."
 },
 "C138": {
  "note": "Euclidean category, exact scalars, all rules but midpoint_max_side. The parts are cut at the middle of the gaps, as the search decides."
 },
 "C139": {
  "note": "C139_statement (same bytes every time) is refuted for doubles; C139_four_bytes and C139_holes say what holds. Sizes of int and size_t as on 64-bit machines."
 },
 "C140": {
  "note": "Factor form for all three metrics, exact for one circle and for grids; accuracy of the distances for one circle and for tori. `C140_circle_factor_refuted` has a witness in double."
 },
 "C141": {
  "note": "C141_statement (nearest for the computed distances) is refuted by computation. C141_l1, C141_l2 and their _exact forms bound the error by the extent w of the points; C141_grid is exact. std::sqrt is assumed to round correctly (IEEE 754)."
 },
 "C142": {
  "note": "C142_statement (least computed distance) is refuted by computation with the points of C41. The bound on the factor needs no knowledge of the tree: its height is at most npts - leaf (C122). Column-major queries: see C51."
 },
 "C143": {
  "note": "Searches: the lower bounds are those of the space with infinite coordinates replaced by 2^e, by an argument that a subtree with a finite point is entered or has finite bounds; subtrees of infinite points may be bounded by NaN, which is harmless because nothing in them is ever reported. The NaN refutation needs a standard library whose nth_element is insertion sort; the laws of the standard library say nothing about comparators that are no strict weak order."
 },
 "C144": {
  "note": "The same argument for both kinds of numbers (SpreadThms.v): the longest side is halved, so a level costs one of the k_d; once all are used up the points of a node are pairwise close. In floating point the computed side after rounding shrinks to half plus an absolute error of 4 half-ulps of 2^(e+1), whence the factor 2 and the lower limit on delta."
 },
 "C145": {
  "note": "try_step is the step of the heap model with a place where it fails; C145_throws_clean is stated for all places at once (functions from places to bool). Exceptions while moving, destroying or querying are not modelled (moves and destructors are noexcept in effect; queries only allocate in the caller's vector)."
 },
 "C146": {
  "note": "The count is of chunks of nodes; vectors and boxes are assumed to get their memory."
 },
 "C147": {
  "note": "Positive counterpart of C34. The second theorem has the hypotheses of C34 and `decodes`: decoding a scalar from bytes is not itself a short read."
 },
 "C148": {
  "note": "The model over-approximates compilers: every subset of the sums may be contracted. fused_few (3h + n + 1 <= 2^prec / 16) and apart (no underflow of squares) are hypotheses of the theorems with a factor; h is the height of the tree. C148_grid_exact needs neither, but coordinates on a grid (grid_input, as in C57)."
 },
 "C149": {
  "note": "narrow_input (SpecNarrow.v) spells out the room that distances need: n times the largest term below the largest value of the type. int has 32 bits; what an overflowing int does (iovf) is arbitrary. Construction is that of C102/C107, box searches those of C103, for the same scalar types. C149_no_room_refuted and C149_modulo describe what happens without room, C149_int_overflow the undefined behaviour for uint16_t."
 },
 "C150": {
  "note": "GoogleTest comparisons are parameters float_eq and float_le; the theorems that tests pass only assume that they accept equal (smaller or equal) values, C150_knn_detects that float_eq accepts nothing else. usable, distances_fit, exact_laws and field_laws as in C14-C21. Box maps of both space categories are covered."
 },
 "C151": {
  "note": "Hypotheses as in C10 (tree), C67 and C68 (forest, unit reflections) and C78 (files). Reading the data sets is C81 to C84; timing and printing are not modelled, nor is the division of the two counts as floats. The object representation of a neighbor is a parameter c."
 },
 "C152": {
  "note": "Hypotheses as in C03, C04 and C08. full_tree_statement is the expectation of the test LeafRanges; the test passes for the points it draws unless the first split leaves a single point on one side."
 }
}