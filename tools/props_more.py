p("Python: a saved tree loads as the same tree",
  "load_kd_tree(pts, file) after save_kd_tree(tree, file) on the same points returns a tree equal to the saved one (same metric, dtype, dimension, indices, boxes and nodes), whatever the content of struct padding and whatever follows in the file.",
  "every tree made from an array of at most 2^31-1 points, every metric, both byte orders, every padding content",
  "All trees and padding bytes.",
  [PY+"kd_tree.hpp: save_kd_tree, load_kd_tree, pkd_header", PY+"def_kd_tree.cpp: load_kd_tree, save_kd_tree"])
p("Python: search_knn returns the k nearest neighbours of every query",
  "For a tree of metric L1 or L2Squared, KdTree(pts, metric, leaf).search_knn(queries, k) succeeds and row i of the returned array holds, in order of distance, min(k, npts) nearest neighbours of query i with their exact distances (exact arithmetic); the shape is (n, k), or (n,) when k = 1.",
  "every C-contiguous pair of arrays of the same floating dtype, every leaf size, every k >= 1, every fair schedule of the parallel loop",
  "Needs all arrays, layouts and schedules at once.",
  [PY+"kd_tree.hpp: kd_tree_impl::search_knn, make_kd_tree", PY+"py_array_map.hpp: make_map"])
p("Python: search_radius returns exactly the open ball of every query",
  "For metric L1 or L2Squared, search_radius(queries, radius, sort) returns one array per query holding each point with distance below the radius exactly once with its distance, sorted if requested.",
  "every contiguous pair of arrays of the same floating dtype, every radius, every fair schedule",
  "Needs all arrays and schedules.",
  [PY+"kd_tree.hpp: kd_tree_impl::search_radius"])
p("Python: search_box returns exactly the points inside every box",
  "search_box(boxes) returns for the i-th pair of points of `boxes` the indices of exactly the points p with min <= p <= max in every coordinate, each once.",
  "every contiguous array with an even number of points, every metric, every NaN-free scalar (order laws only), every fair schedule",
  "Needs all arrays and schedules.",
  [PY+"kd_tree.hpp: kd_tree_impl::search_box"])
p("Python: every entry returned by search_knn is a neighbour",
  "Every entry of the array returned by search_knn names a point of the tree together with its distance to the query.  (Refuted for k > npts: entries beyond npts are index 0 with distance 0, and the last has distance max.)",
  "every k",
  "Tests use k <= npts.",
  [PY+"kd_tree.hpp: search_knn"])
p("Python: the answer has the memory layout of the input",
  "search_knn documents that the memory layout of a new (or resized) output equals that of the input, so for queries given as columns, column i holds the neighbours of query i.  (Refuted: the shape is (k, npts) but the memory is in C order, so columns mix the neighbours of different queries.)",
  "every layout of the queries",
  "Tests use C order only.",
  [PY+"kd_tree.hpp: ensure_size", PY+"def_kd_tree.cpp: search_knn documentation"])
p("Python: a supplied output array is resized unless its shape fits, and only its elements are written",
  "search_knn(pts, k, nns) resizes nns when its shape is not (npts, k) and otherwise writes exactly the elements of nns.  (Both refuted: only the number of elements is compared; a strided view is written as if contiguous.)",
  "every output array",
  "Tests pass fresh arrays.",
  [PY+"kd_tree.hpp: search_knn, ensure_size"])
p("Python: arguments of searches are checked",
  "A query array of another dtype than the tree's, an output array of another dtype than the tree's neighbours, a query array that is not two-dimensional and contiguous or whose points have another dimension than the tree's, and an odd number of box corners raise an error and nothing is read or written.  (The dimension check holds only for trees of dimension 2 or 3; refuted otherwise.)",
  "every tree and every array",
  "All shapes and dimensions.",
  [PY+"kd_tree.hpp: throw_if_not_scalar_dtype, throw_if_not_neighbor_dtype, make_map", PY+"core.hpp: is_dim_compatible"])
p("Python: the constructor rejects arrays that are not matrices",
  "KdTree(pts, ...) raises an error when pts is not a two-dimensional contiguous array.  (Holds for three or more axes and for non-contiguous matrices; refuted for every contiguous one-dimensional array: its missing second axis is read first.)",
  "every array",
  "Out-of-range reads of a shape often go unnoticed.",
  [PY+"kd_tree.hpp: make_kd_tree, kd_tree::kd_tree", PY+"core.hpp: array_layout"])
p("Python: loading with points that do not match is rejected",
  "load_kd_tree(pts, file) raises an error when pts has fewer points than the stored tree.  (Refuted: it succeeds and searching then reads outside of the points.)",
  "every file and array",
  "Tests load with the same points.",
  [PY+"kd_tree.hpp: load_kd_tree"])
p("Python: a tree is a read-only view of its points",
  "numpy.asarray(tree) has the shape of the array the tree was made from and the same element at every index.",
  "every array a tree can be made from",
  "All shapes and layouts.",
  [PY+"kd_tree.hpp: request", PY+"def_kd_tree.cpp: def_buffer"])

# floating point
p("Exact answers for floating point grids",
  "With float or double coordinates, metric L1 or squared L2, search_nn, search_knn and search_radius give exactly the answers of exact real arithmetic when all coordinates are multiples of a power of two coarse enough for sums of distances not to round; in one dimension they give exactly the answers by computed distance, whatever the coordinates.",
  "every IEEE format, every finite input without overflow, every tree built with the median or sliding midpoint rule",
  "Rounding errors depend on every bit of the input.",
  ["src/pico_tree/pico_tree/internal/kd_tree_search.hpp: search_nearest_euclidean", "src/pico_tree/pico_tree/metric.hpp: metric_l1, metric_l2_squared"])
p("Construction from floating point coordinates",
  "For float or double coordinates of at most a quarter of the range, building with the median or sliding midpoint rule terminates; the tree stores every index once, in consecutive non-empty leaves.",
  "every IEEE format and point set",
  "Rounding of split values could make partitions empty or recursion endless for rare inputs.",
  ["src/pico_tree/pico_tree/internal/kd_tree_builder.hpp: splitter_rule_traits, build_kd_tree_impl"])
p("Box search on floating point coordinates",
  "search_box reports exactly the points whose (real-valued) coordinates lie in the closed box, for all finite float or double inputs; rounding plays no part.",
  "every IEEE format, point set and box",
  "Boundary cases differ in the last bit.",
  ["src/pico_tree/pico_tree/internal/kd_tree_search.hpp: search_box"])
p("A nearest neighbour is always found",
  "search_nn on a tree (which has at least one point) returns the index of a point.  (Refuted for double: when all squared distances overflow, nothing is stored and the caller's index is returned; proved in general whenever no distance is below the largest number.)",
  "every finite double input",
  "Tests stay far from the ends of the range.",
  ["src/pico_tree/pico_tree/internal/kd_tree_search.hpp: search_nearest_euclidean", "src/pico_tree/pico_tree/internal/search_visitor.hpp: search_nn"])
p("Accuracy of reported distances",
  "The distance that metric L1 or squared L2 computes in float or double differs from the exact one by at most 2(n+3)u times the exact one (n dimensions, u = 2^-precision), plus n times the smallest positive number for squares.",
  "every IEEE format and every finite input without overflow",
  "Worst cases of rounding are rare.",
  ["src/pico_tree/pico_tree/metric.hpp: metric_l1, metric_l2_squared", "src/pico_tree/pico_tree/distance.hpp"])

# cover tree (examples/pico_understory)
p("A cover tree stores every point exactly once, with correct bounds",
  "Constructing a cover_tree of a non-empty space has no undefined behaviour; the nodes of the tree hold each point index exactly once, and the maximum distance stored at a node is an upper bound on the distance from its point to every point stored below it.",
  "every non-empty point set, metric, base, scalar type (the bound: totally ordered distances), every shuffle, every C library",
  "All insertion orders; nodes are moved between parents while the tree grows.",
  [UN+"internal/cover_tree_builder.hpp: build_cover_tree", UN+"cover_tree.hpp: cover_tree"])
p("Construction of a cover tree ends",
  "Constructing a cover_tree of a non-empty space returns.  (Proved for exact scalars and for real numbers; refuted for double: when the random shuffle puts two coinciding points first, the level of the root is minus infinity and construction never returns.)",
  "every non-empty point set, metric, base and shuffle",
  "Depends on coinciding points and on the random order.",
  [UN+"internal/cover_tree_builder.hpp: build_cover_tree, insert, base"])
p("Cover tree searches are exact for metrics with a triangle inequality",
  "search_nn, search_knn (vector and range), search_radius and their approximate forms give exactly the answers required of kd_tree, for every metric whose distance satisfies the triangle inequality on the points and the query.  L1, LPInf and SO(2) satisfy it in exact arithmetic; the Euclidean distance metric_l2 does over the real numbers, where the nearest, k nearest and radius searches are exact.",
  "every tree, query, radius, k >= 1, initial content of outputs",
  "Pruning depends on stored bounds of every node.",
  [UN+"internal/cover_tree_search.hpp: search_nearest", UN+"cover_tree.hpp: search_nn, search_knn, search_radius", UN+"metric.hpp: metric_l2"])
p("Cover tree searches are exact for squared distances",
  "search_nn of a cover_tree with metric_l2_squared returns a nearest neighbour.  (Refuted: points 18, 0, 5 and query 10 give 18.)",
  "every tree and query",
  "Small trees often give the right answer by chance.",
  [UN+"internal/cover_tree_search.hpp: search_nearest", "src/pico_tree/pico_tree/metric.hpp: metric_l2_squared"])

# kd_forest (examples/pico_understory)
p("Construction of a forest",
  "Constructing a kd_forest with at least one tree returns the requested number of trees; each has a random unit vector, holds the points reflected at the hyperplane orthogonal to it, and indexes each point exactly once.  Reflections do not change squared Euclidean distances.  A forest size of zero fails an assertion.",
  "every non-empty point set within a ball that fits the scalar type, leaf size, forest size, and random numbers that can be normalised exactly; exact scalars",
  "Random; a slightly wrong reflection still looks plausible.",
  [UN+"kd_forest.hpp: kd_forest", UN+"internal/rkd_tree_builder.hpp: build_rkd_tree", UN+"internal/rkd_tree_hh_data.hpp: rotate_point, random_normal"])
p("A forest search over as many leaves as there are points is exact",
  "search_nn(x, max_leaves_visited, nn) with the squared Euclidean metric returns a nearest neighbour and its distance whenever max_leaves_visited is at least the number of points.",
  "every forest, query, leaf and forest size, behaviour of the priority queue among equal keys; exact scalars",
  "Pruning by box distances and the order of the queue interact.",
  [UN+"kd_forest.hpp: search_nn", UN+"internal/kd_tree_priority_search.hpp: priority_search_nearest_euclidean"])
p("A forest search over few leaves",
  "With any positive max_leaves_visited, search_nn returns some point of the set with its true distance; no search has undefined behaviour; per tree a visitor sees at most max_leaves_visited * max_leaf_size points, none twice, at least one in total, and with as many leaves as points all points that are closer than its final bound.  With max_leaves_visited = 0 the index of the output is left as it was.",
  "every forest, visitor, query and limit; undefined behaviour and limits: every scalar type and metric",
  "Which leaf is reached first depends on the random rotation.",
  [UN+"kd_forest.hpp: search_nearest, search_nn", UN+"internal/kd_tree_priority_search.hpp: priority_search_nearest_euclidean"])
p("Forest searches with other metrics",
  "search_nn of a kd_forest with another Euclidean-space metric returns a nearest neighbour with respect to this metric.  (Refuted for metric_l1: distances are computed between reflected points.)",
  "every forest and query with metric_l1",
  "Compiles and returns plausible neighbours.",
  [UN+"kd_forest.hpp: kd_forest", "src/pico_tree/pico_tree/metric.hpp: metric_l1"])
p("Several neighbours from a forest",
  "search_nearest of a kd_forest with the k-nearest-neighbours visitor finds the k nearest neighbours when enough leaves are visited.  (Refuted: every tree shows its points to the same visitor, so one point can be reported several times in place of others.)",
  "every forest with several trees",
  "Needs several trees and more than one neighbour.",
  [UN+"kd_forest.hpp: search_nearest", "src/pico_tree/pico_tree/internal/search_visitor.hpp: search_knn"])

# adaptors
p("Arrays are read as the points they hold",
  "A tree over a space_map of scalars (dimension given at compile time or as third argument), a space_map or vector of points, or a matrix_space sees exactly the points stored in the array, in order; search_nn then returns the index of a nearest one.  An array that is too short is read past its end.",
  "every array, offset, number of points and dimension whose product fits size_t, every query point in memory",
  "Layouts, offsets and both kinds of dimension at once.",
  ["src/pico_tree/pico_tree/map.hpp: space_map, point_map", "src/pico_tree/pico_tree/map_traits.hpp", "src/pico_tree/pico_tree/vector_traits.hpp", "src/pico_tree/pico_tree/array_traits.hpp", UN+"internal/matrix_space.hpp: matrix_space"])
p("The run-time dimension given to a map is respected",
  "A space_map constructed with a run-time dimension has this dimension, and a point_map made from a range has the size of the range.  (Refuted: a compile-time dimension silently overrides both.  Leaving the argument out when the dimension is only known at run time compiles and gives a dimension of 2^64-1; reading any point is then out of bounds.)",
  "every dimension, array and size",
  "Compiles without warning.",
  ["src/pico_tree/pico_tree/map.hpp: space_map, point_map, map_storage, space_map_matrix_storage"])
p("Eigen matrices are read as the points they hold",
  "A tree over an Eigen matrix, or a map with any outer stride, sees the columns of a column-major and the rows of a row-major matrix; a vector expression used as query is read coefficient by coefficient; search_nn then returns a nearest column (row).",
  "every size, storage order, outer stride, fixed or dynamic sizes, inner stride one",
  "Combinations of storage order and strides.",
  ["src/pico_tree/pico_tree/eigen3_traits.hpp: eigen_traits_impl, eigen_point_traits"])
p("Every Eigen expression that compiles is read correctly",
  "Also maps with an inner stride and rows (columns) of a column-major (row-major) matrix as queries are read coefficient by coefficient.  (Refuted: only the first coefficient's address is used, and consecutive scalars are read.)  A matrix with a single row or column at compile time is always one point.",
  "every Eigen map and block accepted by the traits",
  "Compiles; wrong numbers but no crash.",
  ["src/pico_tree/pico_tree/eigen3_traits.hpp: eigen_point_traits::data, eigen_traits_impl::point_at"])
p("A continuous cv::Mat is read as the points it holds",
  "A tree over an opencv_mat_map of a continuous cv::Mat sees one point per row, its coordinates being the channels of all columns; search_nn then returns a nearest row.",
  "every continuous matrix, number of channels, dimension at compile time or at run time",
  "Combinations of columns and channels.",
  ["src/pico_tree/pico_tree/opencv_traits.hpp: opencv_mat_map"])
p("A part of a cv::Mat is read as the points it holds",
  "A tree over an opencv_mat_map of a cv::Mat whose rows are not adjacent (a region of interest, padded rows) sees one point per row.  (Refuted: with a compile-time dimension the padding is taken for coordinates of the next points; with a run-time dimension the padding becomes further coordinates.)",
  "every two-dimensional matrix",
  "The test uses a continuous matrix.",
  ["src/pico_tree/pico_tree/opencv_traits.hpp: opencv_mat_map::opencv_mat_map"])
p("The dimension may be given at compile time or at run time",
  "A space with a run-time dimension is read like the same space with that dimension at compile time, and the trees built from the two are equal; dynamic_space changes nothing but this.",
  "every space, metric, rule, stop condition and start bounds",
  "Two instantiations of all templates.",
  ["src/pico_tree/pico_tree/internal/space_wrapper.hpp: space_wrapper", TS+"dynamic_space.hpp: dynamic_space", "src/pico_tree/pico_tree/map.hpp: space_map"])

# file formats
FO = TS+"format/"
p("A vector written to a binary file is read back",
  "write_bin followed by read_bin of the same file yields the same vector, whatever the vector held before, and changes no other file.  read_bin of any file yields the whole elements it contains and ignores further bytes.  A file that cannot be opened makes either function throw std::runtime_error.",
  "every non-empty vector of a trivially copyable type, every file name and file system",
  "Sizes that are no multiple of the element size, old contents, failures to open.",
  [FO+"format_bin.hpp: write_bin, read_bin", "src/pico_tree/pico_tree/internal/stream_wrapper.hpp"])
p("An empty vector written to a binary file is read back",
  "write_bin of an empty vector followed by read_bin yields an empty vector.  (Refuted: nothing is written; an existing file keeps its old contents, which are then read, and a missing file is not created.)",
  "every file system",
  "Needs an older file of the same name.",
  [FO+"format_bin.hpp: write_bin"])
p("Big-endian integers are read correctly on every machine",
  "The conversion from big-endian to native byte order applied to the integer whose bytes in memory are those of v in big-endian order is v, on little-endian and on big-endian machines; on the latter it is the identity and on the former it equals the swap of all bytes, which is its own inverse.",
  "every integral type of one to eight bytes, signed or unsigned, every value, both byte orders",
  "Tests run on one machine and with few values.",
  [FO+"endian.hpp: big_endian, swap_endian"])
p("MNIST files are read as the images and labels they hold",
  "Reading a well-formed image (label) file yields exactly its images (labels), whatever the vector held before and whatever follows them in the file.  A file with another first number is refused with std::runtime_error.",
  "every number of images and labels below 2^31, every content, both byte orders",
  "The data sets are four fixed files.",
  [FO+"format_mnist.hpp: read_mnist_images, read_mnist_labels"])
p("MNIST files that do not hold what they announce are refused",
  "A file shorter than its header announces is refused.  (Refuted: what is there is read; the remaining pixels or labels keep what the vector held before or are zero.)  A header whose image size is not 784 pixels is refused unless height times width overflows int, which is undefined; a negative number of images throws std::length_error.",
  "every header, every shorter file",
  "Truncated downloads and other sizes are not tested.",
  [FO+"format_mnist.hpp: read_mnist_images, read_mnist_labels"])
p("fvecs, ivecs and bvecs files are read as the vectors they hold",
  "Reading a file whose name ends in the right letters, in upper or lower case, yields exactly the vectors of its rows when these have the dimension of the point type; a last partial row is ignored.  A name with another ending throws std::runtime_error, or std::out_of_range when it has fewer than five characters.",
  "every element type and dimension, every number of rows, every content, every name",
  "The examples read one file of one dimension.",
  [FO+"format_xvecs.hpp: read_xvecs"])
p("fvecs, ivecs and bvecs files of another dimension are refused",
  "Reading a file whose rows have another dimension than the point type fails or yields its rows.  (Refuted: the dimension stored in the file is not looked at and the bytes are cut into rows of the wrong size.)  A name consisting of the ending only is accepted.",
  "every file",
  "No file of another dimension is ever read.",
  [FO+"format_xvecs.hpp: read_xvecs"])
p("The pose of a scan is a rigid motion",
  "A pose file of six numbers describes: turn about the third, then the second, then the first axis by the given angles, then translate.  Every pose that is read preserves distances and orientation.",
  "every pose file, in exact arithmetic with exact sine and cosine",
  "A sign error in one of nine products only shows for some angles.",
  [FO+"format_uosr.hpp: isometry, uosr_scan_reader::read_pose"])
p("Scans are read as the points they list",
  "Every line of at least three words gives one point, the pose applied to the three numbers, also when the last line does not end in a newline.  All scans of a directory are read in the order of the directory, each with its own pose, and appended to the points.  The names recognised are scan, three digits, any one character, 3d.  Points written with write_ascii are lines of this form that hold the same numbers.",
  "every directory with one pose per scan, every text, every conversion of numbers",
  "File systems, white space and missing newlines vary.",
  [FO+"format_uosr.hpp: read_uosr, uosr_scan_reader", FO+"format_ascii.hpp: write_ascii"])
p("Lines and files that are no scans are ignored",
  "A line without three words gives no point, and only names ending in .3d are scans.  (Refuted: an empty line gives the origin, a line with one or two words repeats the last number, and any character stands for the dot.)  A scan without pose file throws std::runtime_error; a pose with too few numbers is used uninitialised.",
  "every line, name and pose",
  "A trailing empty line adds one point among millions.",
  [FO+"format_uosr.hpp: read_uosr, uosr_scan_reader::read_next, uosr_scan_reader::read_pose"])
p("Any metric that adds up monotone terms of the coordinates is searched exactly",
  "For a metric written by the user that is a sum over the coordinates of non-negative terms, where the metric applied to a single coordinate difference (or to the distance to a segment) does not exceed the term of any point beyond it (of the segment), the nearest neighbour, the k nearest neighbours and the points within a radius are exactly those of a linear scan with the metric itself; approximate searches answer within the factor given.",
  "every such metric of either category, every tree, every query, k, radius and factor, in exact arithmetic",
  "User metrics are not part of the test suite.",
  ["examples/kd_tree/kd_tree_custom_metric.cpp", "src/pico_tree/pico_tree/kd_tree.hpp: search_nn, search_knn, search_radius"])
p("The LP^P metric of the documentation is searched exactly",
  "With the example's metric_lp_p<P>, search_nn, search_knn and search_radius answer as a linear scan with the sum of |x - y|^P would.",
  "every P, every tree, every query, in exact arithmetic",
  "The example runs P = 3 once and compares with nothing.",
  ["examples/kd_tree/kd_tree_custom_metric.cpp: metric_lp_p"])
p("The torus metric of the documentation is searched exactly",
  "With the example's metric_t2_squared and coordinates within [0, 1], search_nn, search_knn and search_radius answer as a linear scan with the sum of the squared lengths of the shorter arcs would.",
  "every dimension, every tree, every query, in exact arithmetic",
  "The example prints a few answers and compares with nothing.",
  ["examples/kd_tree/kd_tree_custom_metric.cpp: metric_t2_squared"])
p("The counting visitor of the documentation counts the points compared",
  "search_nearest with the example's search_nn_counter finds the nearest neighbour, and its count is the number of distinct points whose distance was computed; each point that was not looked at is strictly farther than the answer.",
  "every tree, every metric as in C88, every query, in exact arithmetic",
  "The example prints the count and compares with nothing.",
  ["examples/kd_tree/kd_tree_custom_search_visitor.cpp: search_nn_counter"])
p("A metric that takes the root of the sum is searched exactly",
  "The L2 distance itself, with |x| for a single coordinate, gives the nearest neighbour.  (Refuted: the tree adds up |x| over the coordinates, which exceeds the root; the comment of the example gives performance as the reason not to do this, but the answers are wrong.)",
  "every tree and query",
  "The metric is not part of the library, but nothing prevents writing it.",
  ["examples/kd_tree/kd_tree_custom_metric.cpp: comment at the top"])
p("A kd_forest of one tree answers like a linear scan",
  "When enough leaves are visited, search_nearest of a kd_forest with a single tree finds exactly the points within a radius (radius visitor) and the k nearest neighbours, in order (k-nearest-neighbours visitor), with their squared distances.",
  "every point set, query, radius and k, every random vector, in exact arithmetic",
  "The test of the forest compares one nearest neighbour search with a linear scan.",
  [UN+"kd_forest.hpp: search_nearest", UN+"internal/kd_tree_priority_search.hpp: priority_search_nearest_euclidean", "src/pico_tree/pico_tree/internal/search_visitor.hpp: search_radius, search_knn"])
p("A kd_forest reports each point within a radius once per tree",
  "When enough leaves are visited, the radius visitor is given every point within the radius exactly as often as there are trees, and no other point.",
  "every number of trees, point set, query and radius, in exact arithmetic",
  "Radius searches in a forest are not tested.",
  [UN+"kd_forest.hpp: search_nearest", "src/pico_tree/pico_tree/internal/search_visitor.hpp: search_radius"])
p("More trees or more leaves never give a farther neighbour",
  "With the same random vectors, a kd_forest with further trees returns a neighbour that is not farther than without them.  In a forest with a single tree a larger bound on the number of leaves returns a neighbour that is not farther.",
  "every forest, query and bound on the leaves, in exact arithmetic",
  "Recall is only measured for whole data sets.",
  [UN+"kd_forest.hpp: search_nn", UN+"internal/kd_tree_priority_search.hpp: priority_search_nearest_euclidean"])

p("Python programs never read freed memory and nothing is freed twice",
  "A Python program that makes trees (KdTree), searches, indexes and slices DArrays, takes memoryviews and array views, and drops references at any time never reads memory that was freed, as long as it does not use load_kd_tree or iterate a DArray and does not move memory others look at by searching into an existing output.  Without such outputs there is no condition left.  No program whatsoever frees memory twice.",
  "every sequence of operations, deletion of unreferenced objects at any time after they became unreferenced",
  "Whether freed memory is read depends on the order in which references are dropped; tests hold on to everything.",
  [PY+"def_kd_tree.cpp: py::init, keep_alive", PY+"def_darray.cpp: __getitem__, keep_alive", PY+"darray.hpp: darray_impl"])
p("A loaded tree can be used like one that was made",
  "The result of load_kd_tree keeps its points alive.  (Refuted: the binding has no keep_alive.  When the program drops the points, a search reads freed memory.  Proved instead: all is well if the program itself never drops the points.)",
  "every sequence of operations",
  "The test that loads a tree holds on to the points.",
  [PY+"def_kd_tree.cpp: load_kd_tree"])
p("Elements obtained by iterating over a DArray stay valid",
  "An array obtained from iterating over the result of search_radius or search_box can be used as long as it is referenced, as one obtained by indexing.  (Refuted: it keeps nothing alive; once the DArray and the iterator are gone it points to freed memory, as in list(tree.search_radius(...)).  Proved instead: all is well if the program holds on to the DArray.)",
  "every sequence of operations",
  "The tests iterate over a variable.",
  [PY+"def_darray.cpp: __iter__", PY+"darray.hpp: darray_impl::iterator"])
p("Searching into an existing output leaves views of it usable",
  "Views of an output array or DArray stay valid when it is given to another search.  (Refuted: an array that is resized, or a vector that has to grow, moves; an iterator of a DArray that became shorter reads past its end.)  Refilling a DArray with as many results as fit into it allocates and frees nothing.",
  "every state and every number of results",
  "The tests do not look at old views after a search.",
  [PY+"kd_tree.hpp: search_knn, search_radius, search_box, ensure_size", "src/pico_tree/pico_tree/internal/search_visitor.hpp: search_radius"])
p("The Python module leaks nothing",
  "After any program, when all references are dropped, every object is deleted and all memory is freed.  At any time, all memory that is not freed belongs to exactly one object.",
  "every sequence of operations",
  "Leaks are not observed by tests.",
  [PY+"def_kd_tree.cpp", PY+"def_darray.cpp", PY+"darray.hpp"])
p("What the Python module shares and what it copies",
  "A KdTree and a loaded tree read the memory of the array of points itself; d[i] and the elements of an iteration are views of the memory of the DArray; d[a:b] is a copy that shares no memory; the result of search_knn is new memory that stays allocated as long as the result.",
  "every reachable state",
  "Sharing cannot be seen from values that are not changed.",
  [PY+"py_array_map.hpp", PY+"darray.hpp: operator*, copy", PY+"kd_tree.hpp: search_knn"])

IT = "src/pico_tree/pico_tree/"
p("Trees over signed integers are exact as long as nothing overflows",
  "With a signed integer scalar type and coordinates small enough for sums of four coordinates and for the distances, trees can be made with the median and sliding midpoint rules, search_nn, search_knn and search_radius answer as a linear scan would, and any visitor sees what it would see with whole numbers of unlimited size.",
  "every signed type, point set, query, bucket size; the metrics L1 and L2 squared; whatever overflow would do",
  "The tests use integers in one container test only; that no intermediate result overflows concerns all inputs.",
  [IT+"internal/kd_tree_builder.hpp", IT+"internal/kd_tree_search.hpp", IT+"metric.hpp: metric_l1, metric_l2_squared"])
p("Box searches are right for every integer type",
  "search_box returns exactly the points within the box, also for unsigned scalars and for coordinates whose differences overflow, once the tree was made.",
  "every integer type, whatever overflow does, every point set and box, every splitter rule and metric without wrap-around dimensions",
  "Needs inputs near the ends of the type.",
  [IT+"internal/kd_tree_search.hpp: search_box", IT+"kd_tree.hpp: search_box"])
p("Nearest neighbours are right for all values of a signed integer type",
  "search_nn with L2 squared returns the nearest neighbour whatever the coordinates are.  (Refuted: distances overflow; with wrap-around a point at 65536 is preferred to one at 1.  In C++ the overflow is undefined.)",
  "every point set and query of 32-bit integers",
  "Tests use small coordinates.",
  [IT+"metric.hpp: metric_l2_squared", IT+"internal/kd_tree_search.hpp: search_nearest_euclidean"])
p("Distances of unsigned points are right modulo two to the number of bits",
  "With an unsigned scalar type and L2 squared, each reported point is a point of the set at most once, and its distance is the true one modulo 2^bits.",
  "every unsigned type, tree and query",
  "The subtraction of unsigned coordinates wraps around.",
  [IT+"metric.hpp: metric_l2_squared, r1_distance", IT+"kd_tree.hpp: search_nn, search_radius"])
p("Searches are right for unsigned points",
  "With an unsigned scalar type and small coordinates search_nn returns the nearest neighbour and search_radius finds all points within the radius.  (Refuted: left_max + right_min - v - v > 0 holds unless the sum is 0, so the left child is taken for the one that holds the query and the right one is skipped when it begins too far to the left of the query; not even a point equal to the query is found.)",
  "every set of points and query with coordinates up to 1000 in unsigned int",
  "No test uses an unsigned scalar.",
  [IT+"internal/kd_tree_search.hpp: search_nearest_euclidean"])
p("Trees over unsigned points can be made unless too many points coincide",
  "With an unsigned scalar type, the median and sliding midpoint rules and at most max_leaf_size equal points, construction ends with a tree.  If all points are equal and there are more of them than max_leaf_size, it uses an uninitialised variable: no side of the box is longer than numeric_limits::lowest(), which is 0.",
  "every unsigned type, point set, bucket size",
  "An uninitialised variable often holds a harmless value.",
  [IT+"internal/box.hpp: max_side", IT+"internal/kd_tree_builder.hpp: splitter_rule_traits"])
p("The midpoint rule does not work with integers",
  "With an integer scalar type midpoint_max_side splits at the lower side of the box (scalar_type(0.5) is 0), so construction with max_leaf_size never gives a tree when there are more points than that; when nothing overflows it recurses for ever.",
  "every integer type, point set, bucket size",
  "A test would not end.",
  [IT+"internal/kd_tree_builder.hpp: midpoint_max_side"])
p("Approximate searches with integers keep their guarantee",
  "search_nn with an approximation ratio e returns a point whose distance is at most e times the smallest one.  (Refuted: 1 / e is 0 in integers.  For e of 2 or more, search_nn reports distance 0 for some point and search_radius finds nothing, whatever the radius.)",
  "every integer type, tree, query and e",
  "Approximate searches are tested with floating point numbers only.",
  [IT+"internal/search_visitor.hpp: search_approximate_nn, search_approximate_radius"])
p("Trees made of nodes in memory behave as values",
  "A program builds, loads, moves, assigns, destroys and queries kd_tree objects in any order. As long as it does not query an object that was moved from, every call returns what it would return if each object simply held its tree as a value: building or loading one tree, moving it, or destroying another one never changes the answers of any tree, no dangling, null or uninitialised pointer is followed, and no call has undefined behaviour that the value semantics does not have.",
  "every sequence of operations, any number of objects, every point set, build rule, metric, visitor and saved file",
  "Corruption through a stale pointer or a reused chunk depends on the order of operations and on what the memory happens to hold.",
  [IT+"internal/kd_tree_builder.hpp: build_kd_tree_impl", IT+"internal/kd_tree_data.hpp: read_node, write_node", IT+"internal/kd_tree_node.hpp", IT+"internal/memory.hpp: chunk_allocator", IT+"internal/kd_tree_search.hpp", IT+"kd_tree.hpp: kd_tree"])
p("Programs that never overwrite a tree give all memory back",
  "When all kd_tree objects of a program are destroyed, all memory of their nodes has been freed, provided no tree was move-assigned to an object that still held one (which loses memory, C36).",
  "every sequence of operations that ends normally",
  "Leaks do not fail tests.",
  [IT+"internal/memory.hpp: list_pool_resource, chunk_allocator", IT+"kd_tree.hpp: kd_tree"])
p("Node memory in use is exactly what the trees need",
  "At any time the number of chunks of 256 nodes in use is the sum over the trees held of the number of their nodes divided by 256 and rounded up; objects that were moved from hold none.",
  "every sequence of operations as in C110 and C111",
  "Tests do not look at the memory of a tree.",
  [IT+"internal/memory.hpp: chunk_allocator", IT+"internal/kd_tree_data.hpp: kd_tree_data"])
p("A tree that was moved from can still be queried",
  "A kd_tree object answers queries after it was moved from. (Refuted: the root pointer stays, the index vector is empty and the query reads past its end; where the moved members are only views it works until the new owner is destroyed and then reads freed memory.)",
  "every tree and query",
  "It may appear to work.",
  [IT+"kd_tree.hpp: kd_tree(kd_tree&&)", IT+"internal/kd_tree_data.hpp: kd_tree_data"])
p("Answers are right at the end of any program with tree objects",
  "After any sequence of builds, moves, assignments, destructions and queries, an object that holds the tree over a point set answers search_nn, search_knn and search_radius exactly right for that point set.",
  "every such sequence, every point set, query, rule, metric with exact arithmetic",
  "Combines memory, construction and search for unbounded sequences.",
  [IT+"kd_tree.hpp: kd_tree, search_nn, search_knn, search_radius", IT+"internal/memory.hpp: chunk_allocator"])
p("Searching a tree whose points were modified is safe",
  "If the points a kd_tree refers to are modified or points are appended after it was made, or a saved tree is loaded with other points than it was made from (at least as many, same dimension), every search still ends without undefined behaviour. It hands each of the original point numbers to the visitor at most once, with the distance of the point as it is now, and never looks at appended points. A saved tree loaded with other points is exactly the saved tree referring to these points; nothing is checked.",
  "every tree, every modification that does not remove points, every metric, visitor and query",
  "There are arbitrarily many ways to modify points, and a stray read does not show.",
  [IT+"kd_tree.hpp: kd_tree, load, search_nearest", IT+"internal/kd_tree_search.hpp", IT+"internal/space_wrapper.hpp: space_wrapper"])
p("How wrong the nearest neighbour of a stale tree can be",
  "After such a modification search_nn returns a point with its present distance, and that distance is at most the larger of the former and the present distance of every other point: the answer is no worse than if every point were at the farther of its two positions.",
  "every tree, modification and query with exact arithmetic",
  "The bound concerns all points and all modifications.",
  [IT+"kd_tree.hpp: search_nn", IT+"internal/kd_tree_search.hpp: search_nearest_euclidean, search_nearest_topological"])
p("How wrong the k nearest neighbours of a stale tree can be",
  "After such a modification search_knn returns min(k, number of original points) distinct original points, sorted by and with their present distances, and each is at most as far as the farther of the former and the present distance of every point that is not returned.",
  "every tree, modification, k and query with exact arithmetic",
  "The bound concerns all points and all modifications.",
  [IT+"kd_tree.hpp: search_knn", IT+"internal/kd_tree_search.hpp: search_nearest_euclidean, search_nearest_topological"])
p("What a radius search with a stale tree finds",
  "After such a modification search_radius reports only points within the radius, with their present distances, each once, and it reports every point that is within the radius at its former and at its present position.",
  "every tree, modification, radius and query with exact arithmetic",
  "The bound concerns all points and all modifications.",
  [IT+"kd_tree.hpp: search_radius", IT+"internal/kd_tree_search.hpp: search_nearest_euclidean, search_nearest_topological"])
p("What a box search with a stale tree finds",
  "After such a modification search_box reports every point whose former and present positions are both in the box, and only points whose former or present position is, each once.",
  "every Euclidean tree, modification and box",
  "The bound concerns all points and all modifications.",
  [IT+"kd_tree.hpp: search_box", IT+"internal/kd_tree_search.hpp: search_box"])
p("A tree keeps up with modifications of its points",
  "Searches are exact for the points as they are at the time of the search. (Refuted: after moving a point search_nn misses it, search_box misses it or reports it though it left the box; after appending points search_knn returns entries that belong to no point; after removing points a search reads beyond the end.)",
  "every tree, modification and query",
  "Nothing checks or documents that the points must stay unchanged.",
  [IT+"kd_tree.hpp: search_nn, search_knn, search_box", IT+"internal/kd_tree_search.hpp"])
p("A tree of n points has at most 2n - 1 nodes",
  "With the median and sliding midpoint rules a kd_tree over n points has at most n leaves and exactly one branch less than leaves, hence at most 2n - 1 nodes, which take at most (2n - 1) / 256 chunks, rounded up. With max_leaf_depth d every rule, the midpoint rule included, makes a tree of at most 2^(d+1) - 1 nodes.",
  "every point set, every stop condition and start bounds",
  "The bound holds for every arrangement of points; tests look at a few.",
  [IT+"kd_tree.hpp: kd_tree", IT+"internal/kd_tree_builder.hpp: build_kd_tree_impl::create_node", IT+"internal/memory.hpp: chunk_allocator"])
p("How deep the recursion of the construction goes",
  "The construction recurses exactly as deep as the tree is high: it fails with any smaller stack and gives the same tree with any larger one. With max_leaf_size m the median and sliding midpoint rules never go deeper than n - m branches for n > m points.",
  "every point set, rule, stop condition and start bounds",
  "The depth depends on the arrangement of all points.",
  [IT+"internal/kd_tree_builder.hpp: build_kd_tree_impl::create_node", IT+"kd_tree.hpp: kd_tree"])
p("Trees are logarithmically deep",
  "The depth of a kd_tree with the default rule is logarithmic in the number of points. (Refuted: among k points at one place the sliding midpoint rule separates one at a time, so the tree is at least k - m branches deep; n coincident points give depth exactly n - m, and the construction handles 1/2 (n(n+1) - m(m+1)) points in all, which is quadratic. Duplicates, such as invalid returns of a scanner at the origin, overflow the stack.)",
  "every point set with duplicates, every max_leaf_size and start bounds; no constant makes it logarithmic",
  "Test data has no large group of duplicates.",
  [IT+"internal/kd_tree_builder.hpp: splitter_rule_traits<sliding_midpoint_max_side_t>, create_node", IT+"kd_tree.hpp: kd_tree"])
p("The median rule is logarithmically deep and takes O(n log n)",
  "With the median rule and max_leaf_size m, n <= m * 2^h points give a tree of at most h levels of branches, and at most n * h points are handed to std::nth_element in all, whatever the arrangement of the points, duplicates included.",
  "every point set, max_leaf_size and start bounds",
  "The bound holds for every arrangement of points.",
  [IT+"internal/kd_tree_builder.hpp: splitter_rule_traits<median_max_side_t>, create_node"])
p("The size of the file a tree is saved to",
  "A saved kd_tree takes 16 bytes, n indices, two scalars per dimension, and per leaf one byte and two indices, per branch one byte and an int with two scalars (four for topological metrics) padded to the alignment of the scalar. With the median and sliding midpoint rules this is linear in n.",
  "every tree, index type, scalars of 4 or 8 bytes",
  "Tests save one tree and load it again.",
  [IT+"kd_tree.hpp: save", IT+"internal/kd_tree_data.hpp: write, write_node", IT+"internal/kd_tree_node.hpp"])
p("Answers do not depend on how a tree was made",
  "Two kd_trees over the same points, in any order and made with any rule, stop condition, start bounds, index type and standard library, give the same answers: search_nn the same distance, search_knn the same distances in the same order, search_radius and search_box the same points, and the same indices if the order of the points is the same.",
  "every two trees over a permutation of the same points, every query, k and radius, for exact arithmetic",
  "A test compares one tree with a reference, not all trees with each other.",
  [IT+"kd_tree.hpp: kd_tree, search_nn, search_knn, search_radius, search_box", IT+"internal/kd_tree_builder.hpp: max_leaf_size_t, max_leaf_depth_t, bounds_from_space_t, bounds_t"])
p("The searches of a tree agree with each other",
  "search_nn gives the distance of the first entry of search_knn; search_knn with fewer neighbors gives the first distances of search_knn with more; a sorted search_radius and search_knn agree on their common beginning, and a neighbor found by search_knn is found by search_radius if and only if it is nearer than the radius.",
  "every tree, query, k and radius, for exact arithmetic",
  "Each search has its own code and its own tests.",
  [IT+"kd_tree.hpp: search_nn, search_knn, search_radius", IT+"internal/search_visitor.hpp: search_nn, search_knn, search_radius"])
p("More points never make an answer worse",
  "When points are added and a tree is made again, the distance of search_nn and the distance at each place of the answer of search_knn never increase, search_knn never finds fewer neighbors, and search_radius finds the points it found before and some of the added ones.",
  "every two trees, one over the points of the other and more, every query, k and radius, for exact arithmetic",
  "It relates two trees that may have nothing in common.",
  [IT+"kd_tree.hpp: search_nn, search_knn, search_radius"])
p("Approximate searches of floating point points",
  "With factor e >= 1 an approximate search_nn reports a point whose computed distance is at most e times the smallest computed distance. (Refuted, by e = 1 and C41. It holds up to the rounding of the incremental distances, C41, and of the reciprocal of e: (1 - 2u) d_i <= e (slack * d_j + smallest number). The same holds for each of the k entries of search_knn against each point that it does not report, and search_radius reports only points nearer than the radius and all that are nearer than the radius over e up to the same rounding. The reported distance is the rounded product of the computed distance and the rounded reciprocal. With e = 1 the approximate searches give the answers of the exact ones, bit for bit.)",
  "every IEEE binary format with at least two bits, every point set and query whose distances neither overflow nor underflow, every factor up to 2^(emax-2), every k and radius",
  "The rounding of the factor and that of the distances accumulate only in rare inputs.",
  [IT+"kd_tree.hpp: search_nn, search_knn, search_radius (with e)", IT+"internal/search_visitor.hpp: search_approximate_nn, search_approximate_knn, search_approximate_radius"])
p("Searches of any tree in range are safe",
  "search_nn, search_knn, search_radius, their approximate versions and every custom visitor end and read nothing out of bounds on any kd_tree whose indices, leaf ranges and split dimensions are in range, however wrong the tree is otherwise; they hand the visitor only points of the space with their distances, at most as many as the leaves hold. The same for search_box if the ranges are in order too. (That a loaded tree is in range is refuted: load checks nothing, so that one changed byte of a file makes search_nn read outside of the points.)",
  "every tree in range, every metric, visitor and query; one witness for the refutation",
  "Tests only search trees that were built from the points.",
  [IT+"kd_tree.hpp: load, search_nn, search_knn, search_radius, search_box", IT+"internal/kd_tree_search.hpp", IT+"internal/kd_tree_data.hpp: load, read_node"])
p("Searches are exact on every tree of the points",
  "All searches give the answers of a scan of all points on every tree that holds each point in one leaf and whose branches bound their points, whoever made it: with loose bounds, empty leaves, leaves of different sizes, any root box that encloses the points. Trees made by kd_tree are such trees, and load gives back what was saved. (That being in range suffices is refuted.)",
  "every such tree, metric, query, k, radius and box, for exact arithmetic",
  "Tests only search trees that kd_tree made.",
  [IT+"kd_tree.hpp: search_nn, search_knn, search_radius, search_box, load", IT+"internal/kd_tree_search.hpp", IT+"internal/kd_tree_data.hpp"])
p("What can be loaded is what save writes",
  "If load succeeds on a file, the bytes it consumed are, up to padding bytes, the bytes that save writes for the loaded tree: different files give different trees.",
  "every byte string, index type, byte order, both categories of metrics; every scalar type in which a value has one representation (integers; floats but NaN)",
  "A statement about all byte strings, not only those that save writes.",
  [IT+"kd_tree.hpp: save, load", IT+"internal/kd_tree_data.hpp: load, save, read_node, write_node", IT+"internal/stream_wrapper.hpp: read, write"])
p("Loading ends, and how deep it recurses",
  "Loading ends on every stream. If it succeeds, the number of bytes it consumed is given by the numbers of points, dimensions, leaves and branches of the loaded tree, which also bounds the depth of the recursion by the length of the file. (That the depth is bounded otherwise, e.g. by the number of points, is refuted: for each k a file of 25 + 22 k bytes with no point at all makes load recurse k deep, enough to overflow the stack.)",
  "every stream, index type, scalar type and category; every depth k for the refutation",
  "Tests load only files that save wrote.",
  [IT+"kd_tree.hpp: load", IT+"internal/kd_tree_data.hpp: load, read_node", IT+"internal/stream_wrapper.hpp: read"])
p("Files of floating point trees",
  "A kd_tree of float or double points that is saved and loaded again is the same to the bit, in either byte order. The same for any tree of doubles, infinities and NaN included, and a file without NaN that loads is the one that save writes.",
  "every point set with finite coordinates, rule, stop condition, start bounds and index type; every tree data; every byte string",
  "Rounding, subnormals, signed zeros and infinities at the edges of the format are never all saved in a test.",
  [IT+"kd_tree.hpp: save, load", IT+"internal/kd_tree_data.hpp", IT+"internal/stream_wrapper.hpp: read, write"])
CT = "examples/pico_understory/pico_understory/"
p("Levels and separation of cover trees",
  "In every cover_tree the level of a child is one below that of its parent, and different children of a node are farther apart than the base to the power of their level.",
  "every point set, order of insertion, base and fuel; every scalar type whose order is total on distances and powers (floats without NaN, infinities allowed); every metric that is symmetric on the points; std::pow, std::log and rounding arbitrary",
  "Levels are not observable through searches: a tree that violates the invariants still answers correctly, only slowly.",
  [CT+"cover_tree.hpp: cover_tree", CT+"internal/cover_tree_builder.hpp: insert, insert_covered, find_parent, rebalance, extract, strip, push_child, node_to_parent", CT+"internal/cover_tree_base.hpp: child_distance"])
p("Cover trees cover",
  "Every point below a node of a cover_tree is at most the base to the power of the node's level away from the node, for every base greater than one. (Refuted for the base 1.3, which the comments mention as the fastest: seven points on a line give a node of level 11 (17.92) with a child 20.5 away. It holds for every base of at least two; then the stored max_distance of a node is at most its cover distance as well.)",
  "every point set with a (pseudo)metric, order of insertion and base of at least two, for exact arithmetic; Euclidean distances of real points in particular; one witness for the refutation",
  "The violations appear only after several promotions of leaves to roots in an unlucky random order.",
  [CT+"cover_tree.hpp: cover_tree", CT+"internal/cover_tree_builder.hpp: insert, rebalance, remove_leaf, node_to_parent, update_max_distance", CT+"internal/cover_tree_base.hpp: cover_distance, level"])
p("Cover trees are nearest ancestor trees",
  "Every point below a child c of a node of a cover_tree is at least as near to c as to every other child of the node, for every base greater than one. (Refuted for the base 1.3, as C136: rebalancing skips children that are too far away to matter if the tree were covering. It holds for every base of at least two.)",
  "every point set with a (pseudo)metric, order of insertion and base of at least two, for exact arithmetic; one witness for the refutation",
  "Searches stay correct without the invariant.",
  [CT+"cover_tree.hpp: cover_tree", CT+"internal/cover_tree_builder.hpp: find_parent, rebalance, extract, strip", CT+"internal/cover_tree_base.hpp: child_distance"])
p("Searches look only where they have to",
  "The branches of a kd_tree cut the space into one part per leaf, with the leaf's points in its part. A search with any visitor opens the leaf whose part contains the query first, each leaf at most once, and a further leaf only if some place in its part is no further from the query than the bound that the visitor gives at that moment. The visitor is shown exactly the points of the opened leaves, in order.",
  "every point set, query, stop condition, start bounds and rule but the midpoint rule (which leaves leaves empty); L1, L2Squared and every user-defined Euclidean metric with zero distance from a value to itself; every visitor, monotone or not; exact scalars",
  "Tests compare answers, which are the same when no leaf is ever skipped; only the time differs.",
  [IT+"kd_tree.hpp: kd_tree, search_nearest", IT+"internal/kd_tree_search.hpp: search_nearest_euclidean", IT+"internal/kd_tree_builder.hpp: create_node"])
p("The bytes of a saved tree",
  "The file of a tree is: the dimension and the number of points in eight bytes each, the indices, the minimum and maximum of the box, then the nodes from the root, left side first: a byte 1 and the range of a leaf, or a byte 0, the split dimension in four bytes and the stored scalars of a branch. Saving a tree gives the same file every time. (Refuted for doubles: every branch takes four bytes of uninitialised memory along, so two files of the same tree may differ and leak memory; these bytes are the only ones. It holds for scalars of four bytes.)",
  "every tree (built, loaded or neither), index type, byte order, scalar type of four or eight bytes, both categories of metrics; one witness for the refutation",
  "Tests read files only with the code that wrote them, and padding bytes are zero by chance.",
  [IT+"kd_tree.hpp: save", IT+"internal/kd_tree_data.hpp: save, write, write_node", IT+"internal/kd_tree_node.hpp: kd_tree_branch_single, kd_tree_branch_double, kd_tree_leaf", IT+"internal/stream_wrapper.hpp: write"])

p("Searches on circles in floating point",
  "With rounded coordinates and distances, search_nn, search_knn and search_radius for metric_so2, metric_se2_squared and products of circles return answers that are correct for the computed distances up to a factor 1 + O((height + dimension) * 2^-prec); on a single circle exactly. A computed distance on the circle is within 2^-prec of the true one, on a torus of n circles within n(n+3)/2 * 2^-prec, so the returned neighbour is the nearest up to 2 * 2^-prec. When all coordinates are below one the returned neighbour is at most three times as far as the nearest. On a coarse grid all answers are those of exact arithmetic. (Refuted: when a coordinate is one, which the documentation allows, the returned neighbour may be farther than the nearest by any factor.)",
  "every IEEE binary format, point set and query with circular coordinates in [0, 1] and others of bounded size, every stop condition, splitting rule but midpoint_max_side, every user bounds, k, radius; one witness for the refutation",
  "The tests compare a few searches with a linear scan; rounding of a sum that is updated down the tree and the behaviour next to the ends of the interval need particular digits.",
  [IT+"distance.hpp: s1_distance, squared_s1_distance", IT+"metric.hpp: metric_so2, metric_se2_squared, one_space_s1", IT+"internal/kd_tree_search.hpp: search_nearest_topological", IT+"internal/search_visitor.hpp: search_nn, search_knn, search_radius", "examples/kd_tree/kd_tree_custom_metric.cpp"])

p("Cover trees in floating point",
  "With rounded coordinates and distances, search_nn, search_knn and search_radius of a cover_tree for metric_l1 and metric_l2 return genuine, distinct points with their computed distances, in order; a returned point is farther than a point that was left out only within a relative error O(n * 2^-prec) of the distance plus one of the extent of the point set (and, for metric_l2, the square root of the smallest number). When coordinates are multiples of a power of two that leave room for sums, all answers for metric_l1 are exact. (Refuted: that the returned neighbour is a nearest one for the computed distances. d(q, node) - max_distance is rounded: with points 3.75 and 2.5 times 2^52, -5 and a little above -3, the search for -3 returns -5, although a point is at the distance 2^-51; a search of radius one finds nothing.)",
  "every IEEE binary format, point set and query of bounded size, insertion order, base, fuel, k and radius; std::pow, std::log and rounding arbitrary, std::sqrt correctly rounded; one witness for the refutation",
  "The error depends on the extent of the points, not on the distance that is sought, so tests with points of similar size do not see it.",
  [CT+"cover_tree.hpp: search_nn, search_knn, search_radius, search_nearest", CT+"internal/cover_tree_builder.hpp: update_max_distance", CT+"metric.hpp: metric_l2", IT+"metric.hpp: metric_l1"])

p("Python searches on floating point arrays",
  "KdTree(pts, metric, leaf) with metric L1 or L2Squared succeeds, and search_knn, search_radius and their approximate forms return, whatever the schedule of the threads, one answer per query that is correct for the computed distances up to a factor 1 + 2 (2 (npts - leaf) + sdim) 2^-prec (times the approximation factor), sorted where documented, with rows padded by index 0 beyond the number of points. On a coarse grid, such as whole numbers, the answers of the exact searches are those of exact arithmetic; search_box is always exact. (Refuted: that search_knn(queries, 1) returns the point with the least computed distance.)",
  "every IEEE binary format (float32 and float64 in particular), every contiguous pair of arrays of bounded size, every k, radius, factor of at least one and fair schedule; one witness for the refutation",
  "Tests use a few random arrays, where rounding does not decide.",
  [PY+"kd_tree.hpp: kd_tree, search_knn, search_radius, search_box", PY+"def_kd_tree.cpp: search_knn, search_radius, search_box", IT+"internal/kd_tree_search.hpp: search_nearest_euclidean"])

p("Points with infinite coordinates or NaN",
  "When coordinates may be infinite, a tree can be built and holds every point once if in one dimension all coordinates are of moderate size. search_box treats every point alike and is exact, also for infinite boxes. search_nn and search_radius answer as if the points with an infinite coordinate were not there; so does search_knn for its first entries, but its result has min(k, npts) entries: the ones beyond the number of finite points are not written, so that a fresh vector reads index 0 at distance 0. With no finite point search_nn leaves the index as it was. (Refuted: that construction is always defined - three points at infinity on a line, or two NaN, read an uninitialised variable; that all entries of search_knn are distinct points with their distances; that one NaN leaves the searches for the other points intact.)",
  "every IEEE binary format, point set with finite coordinates of bounded size and any others infinite, every finite query, stop condition, start bounds, rule but midpoint_max_side, k, range and radius; one witness for each refutation",
  "Tests use finite random coordinates only.",
  [IT+"kd_tree.hpp: kd_tree, search_nn, search_knn, search_radius, search_box", IT+"internal/box.hpp: max_side, fit", IT+"internal/kd_tree_builder.hpp: splitter_rule_traits, create_node", IT+"internal/kd_tree_search.hpp: search_nearest_euclidean", IT+"internal/search_visitor.hpp: search_nn, search_knn, search_radius"])

p("When the midpoint rule ends, and depth by the spread of the points",
  "With exact arithmetic a construction with midpoint_max_side and a maximum leaf size m ends exactly when no more than m points are at one place. If no more than m points are pairwise closer than delta in every coordinate, and the box to start with is shorter than delta * 2^k_d in dimension d, the tree holds every point once and its depth is at most the sum of the k_d, for midpoint_max_side and for sliding_midpoint_max_side; with the latter, if up to M points are that close, the depth is at most that sum plus M - m. The same holds for floating point coordinates of size at most 2^e with 2 * 2^k_d in place of 2^k_d when delta is at least 2^(e + 6 - prec). (Refuted: that points at different places suffice in floating point. The middle of 1 and the next double rounds to 1, the right half is the whole box again, and midpoint_max_side with leaves of one point recurses until the stack is exhausted.)",
  "every number of points, dimension, placement, start bounds that enclose the points, index type, leaf size, distance and exponents; every IEEE binary format; one witness for the refutation",
  "A test builds trees of a few sizes; that recursion ends at all, and how deep it goes, depends on distances between points that random data does not have.",
  [IT+"internal/kd_tree_builder.hpp: splitter_rule_traits, midpoint_max_side, sliding_midpoint_max_side, create_node", IT+"internal/box.hpp: max_side", IT+"kd_tree.hpp: kd_tree"])

p("A construction that throws leaves nothing behind",
  "When memory runs out, or a stream throws, at any point while a kd_tree is constructed from points or loaded, the exception reaches the caller, every node made so far has been freed, and all other trees are as they were and answer as before. A program that catches such exceptions behaves like the one without the failed constructions: same answers, and all memory freed once its trees are gone. Without a fault nothing is thrown.",
  "every program that constructs, loads, moves, swaps, destroys and queries kd_trees, every point at which each construction may fail (vectors, each chunk of nodes, each copy of a box, each read), every scalar type and metric",
  "A test cannot let every single allocation fail; the state after a failure deep in the recursion is not observable without instrumenting the allocator.",
  [IT+"internal/memory.hpp: list_pool_resource, chunk_allocator", IT+"internal/kd_tree_builder.hpp: build_kd_tree, create_node", IT+"internal/kd_tree_data.hpp: load, read, read_node", IT+"kd_tree.hpp: kd_tree, load"])

p("Memory a construction needs",
  "If memory for n more chunks of 256 nodes is available, and memory otherwise suffices, the construction of a kd_tree throws exactly when n is less than the number of its nodes divided by 256, rounded up.",
  "every program before, every point set, stop condition, start bounds, rule and n",
  "The threshold must be tried for every number of nodes; tests build trees that fit into one or two chunks.",
  [IT+"internal/memory.hpp: chunk_allocator::allocate", IT+"internal/kd_tree_builder.hpp: build_kd_tree"])

p("Loading from a stream that has exceptions enabled",
  "If the caller enables exceptions of the stream given to load(), then a load either yields the same tree as without them, or throws because the stream ended early, leaving nothing behind. In particular every proper prefix of a saved tree, the empty one included, is rejected with an exception. (Compare the refuted claim for streams without exceptions, where a truncated file is read as indeterminate values.)",
  "every saved tree, every point of truncation, every program before; the first part for every sequence of bytes",
  "A saved tree can be cut at any byte; tests only load complete files.",
  [IT+"kd_tree.hpp: load", IT+"internal/kd_tree_data.hpp: load, read, read_node", IT+"internal/stream_wrapper.hpp: read"])

p("Searches compiled with fused multiply-add",
  "If the compiler contracts any of the sums d + x * x in distances and in box distances into fused multiply-adds, search_nn, search_knn and search_radius with metric_l2_squared still return what they should, up to a factor 1 + 2 (3h + n + 1) u on the distances that program computes (n dimensions, tree of height h, unit roundoff u), and these distances have relative error at most 2 (n + 3) u. The coordinates of the query must be equal to those of a point or far enough from them for squares not to underflow. Without contraction the answers are those of the other properties. If all coordinates are on a grid coarse enough for sums of squares of differences to be representable, the answers are exact, without a factor, whatever is contracted. (Refuted: that contraction never changes the nearest neighbour.)",
  "every choice of the sums that are contracted (per dimension and per depth), every IEEE binary format, point set, query, rule but midpoint_max_side, stop condition, k, radius",
  "Whether and where sums are contracted depends on compiler, target and flags; tests run one build.",
  [IT+"metric.hpp: internal::sum, metric_l2_squared", IT+"distance.hpp: squared, squared_r1_distance", IT+"internal/kd_tree_search.hpp: search_nearest_euclidean", IT+"kd_tree.hpp: search_nn, search_knn, search_radius"])

p("Searches over 8- and 16-bit integers",
  "With coordinates of an integer type of at most 16 bits, signed or unsigned, search_nn, search_knn and search_radius with metric_l1 and metric_l2_squared are exact as long as the largest possible distance, the number of dimensions times the largest term, is less than the largest value of the type: arithmetic is done in int, so that sums and differences of coordinates cannot overflow, unlike with 32-bit unsigned coordinates. Otherwise metric_l2_squared reports the squared distance modulo the width of the type, if no two coordinates are more than 46340 apart; if they are, which uint16_t allows, the square overflows an int, and any value may be reported. (Refuted: that the nearest neighbour is right without room for the distances; uint8_t coordinates of at most 20 are enough for a wrong one.)",
  "every width from 2 to 16 bits, signed and unsigned, point set, query, number of dimensions, start bounds, rule but midpoint_max_side, stop condition, k, radius; one witness for the refutation",
  "No test uses a type that is promoted to int, and one that did would need points whose distances just fit.",
  [IT+"distance.hpp: r1_distance, squared, squared_r1_distance", IT+"metric.hpp: internal::sum, metric_l1, metric_l2_squared", IT+"internal/kd_tree_search.hpp: search_nearest_euclidean", IT+"kd_tree.hpp: search_nn, search_knn, search_radius"])

p("What the checks of the test suite accept",
  "With exact arithmetic: the brute force search used by the tests returns the k nearest points; the check of k nearest neighbours passes for every kd_tree, query and k of at least 1, the check of box searches for every kd_tree and box, boxes that wrap around the circle included; the check of radius searches passes exactly if no point lies at exactly the radius from the query, because it counts the closed ball while the search returns the open one. Conversely, any results that pass have the distances of the k nearest points; are, if free of duplicates, all points of the closed ball; are, if free of duplicates, exactly the points in the box. (Refuted: that results which pass are right. Duplicates go unnoticed in radius and box searches, and wrong indices in searches for k nearest neighbours.) Without points or with k = 0 the brute force search is undefined.",
  "every point set, query, k, radius, box, metric (L1, squared L2, SO(2), squared SE(2); boxes: any metric), rule, stop condition and start bounds, any tolerant comparison of floats that accepts equal values; one witness for each refutation",
  "The statement is about the tests themselves: which correct results they reject and which wrong ones they accept.",
  ["test/pico_tree/common.hpp: search_knn, test_knn, test_radius, test_box", IT+"kd_tree.hpp: search_knn, search_radius, search_box"])

p("The measured precision of the kd_forest",
  "The example that measures how often a kd_forest finds the nearest neighbour: without a file of ground truth it computes, for every query, a nearest point with its distance, and writes them; every later run reads exactly these back, whatever its data and parameters are. If the file has more entries than there are queries, queries are read out of bounds; otherwise the number of agreements is exactly the number of entries whose index the forest returns for that query. With exact arithmetic, if all leaves may be visited and the nearest neighbour of every query is unique, the precision is one. (Refuted: the same without uniqueness. Indices are compared, and with ties forest and tree may return different nearest points.)",
  "every point set, queries, leaf sizes, number of trees, reflections, leaves visited, content of other files; one witness for the refutation",
  "The example needs data sets that are not part of the repository and is not tested; that a file left by another run is used shows up only as a wrong precision.",
  ["examples/kd_forest/kd_forest.cpp: run_kd_tree, run_kd_forest, run_dataset", "examples/pico_understory/pico_understory/kd_forest.hpp: search_nn", "examples/pico_toolshed/pico_toolshed/format/format_bin.hpp: write_bin, read_bin"])

p("How many leaf ranges there are",
  "With the sliding midpoint and median rules, leaf_ranges() of a tree of n points returns: with max_leaf_depth_t(d), at least min(d + 1, n) and at most min(2^d, n) ranges, with the median rule exactly min(2^d, n); with max_leaf_size_t(m), at least n / m and at most n. (Refuted: that the default rule gives 2^d ranges whenever there are that many points, as the test of leaf_ranges expects of 100 random points and d = 2.)",
  "every point set, depth or leaf size representable in the index type, start bounds, all metrics; one witness for the refutation",
  "The number of leaves of one random point set says nothing about others; a point far from the rest is enough to get fewer.",
  [IT+"internal/kd_tree_builder.hpp: max_leaf_depth_t, max_leaf_size_t, is_leaf, create_node", IT+"kd_tree.hpp: leaf_ranges", "test/pico_tree/kd_tree_test.cpp: TEST(KdTreeTest, LeafRanges)"])
