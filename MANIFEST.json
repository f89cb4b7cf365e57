{
 "claims": [
  {
   "property": "C01",
   "status": "proved",
   "theorems": [
    "C01_every_point_once"
   ],
   "note": ""
  },
  {
   "property": "C02",
   "status": "proved",
   "theorems": [
    "C02_build_terminates",
    "C02_exact_range"
   ],
   "note": ""
  },
  {
   "property": "C03",
   "status": "proved",
   "theorems": [
    "C03_max_leaf_size"
   ],
   "note": ""
  },
  {
   "property": "C04",
   "status": "proved",
   "theorems": [
    "C04_max_leaf_depth",
    "C04_terminates_for_every_rule"
   ],
   "note": ""
  },
  {
   "property": "C05",
   "status": "proved",
   "theorems": [
    "C05_coincident_points_diverge",
    "C05_refuted",
    "C05_midpoint_no_undefined_behaviour"
   ],
   "note": "The statement is refuted (C05_refuted): every set of more than m coincident points diverges. Also proved: no undefined behaviour while it runs."
  },
  {
   "property": "C06",
   "status": "proved",
   "theorems": [
    "C06_no_empty_leaves"
   ],
   "note": ""
  },
  {
   "property": "C07",
   "status": "proved",
   "theorems": [
    "C07_median_balanced"
   ],
   "note": ""
  },
  {
   "property": "C08",
   "status": "proved",
   "theorems": [
    "C08_leaf_ranges"
   ],
   "note": ""
  },
  {
   "property": "C09",
   "status": "proved",
   "theorems": [
    "C09_refuted",
    "C09_fails_on_empty_leaves",
    "C09_works_without_empty_leaves"
   ],
   "note": "The statement is refuted; proved exactly when it fails (an empty leaf exists) and that it works otherwise."
  },
  {
   "property": "C10",
   "status": "proved",
   "theorems": [
    "C10_nearest_neighbour"
   ],
   "note": ""
  },
  {
   "property": "C11",
   "status": "proved",
   "theorems": [
    "C11_k_nearest_neighbours"
   ],
   "note": ""
  },
  {
   "property": "C12",
   "status": "proved",
   "theorems": [
    "C12_knn_range"
   ],
   "note": ""
  },
  {
   "property": "C13",
   "status": "proved",
   "theorems": [
    "C13_k_zero_undefined",
    "C13_k_zero_undefined_approx",
    "C13_refuted"
   ],
   "note": "Refuted for every tree and query; C13_k_zero_undefined shows it is always undefined behaviour."
  },
  {
   "property": "C14",
   "status": "proved",
   "theorems": [
    "C14_open_ball"
   ],
   "note": ""
  },
  {
   "property": "C15",
   "status": "proved",
   "theorems": [
    "C15_refuted"
   ],
   "note": "Refuted: the ball is open (see C14)."
  },
  {
   "property": "C16",
   "status": "proved",
   "theorems": [
    "C16_sort_only_reorders",
    "C16_sort_only_reorders_approx"
   ],
   "note": ""
  },
  {
   "property": "C17",
   "status": "proved",
   "theorems": [
    "C17_box_search"
   ],
   "note": ""
  },
  {
   "property": "C18",
   "status": "proved",
   "theorems": [
    "C18_refuted"
   ],
   "note": "Refuted with a two-point witness; C17 holds when the bounds enclose the points."
  },
  {
   "property": "C19",
   "status": "proved",
   "theorems": [
    "C19_approximate_nn"
   ],
   "note": ""
  },
  {
   "property": "C20",
   "status": "proved",
   "theorems": [
    "C20_approximate_knn"
   ],
   "note": ""
  },
  {
   "property": "C21",
   "status": "proved",
   "theorems": [
    "C21_approximate_radius"
   ],
   "note": ""
  },
  {
   "property": "C22",
   "status": "proved",
   "theorems": [
    "C22_visitor_contract",
    "C22_visitor_contract_user_metric"
   ],
   "note": ""
  },
  {
   "property": "C23",
   "status": "proved",
   "theorems": [
    "C23_nn_genuine",
    "C23_knn_genuine",
    "C23_radius_genuine",
    "C23_no_undefined_behaviour"
   ],
   "note": ""
  },
  {
   "property": "C24",
   "status": "proved",
   "theorems": [
    "C24_refuted",
    "C24_lpinf_factor",
    "C24_lpinf_radius"
   ],
   "note": "Exactness is refuted; the factor-sdim guarantee is proved for search_nn and search_radius."
  },
  {
   "property": "C25",
   "status": "proved",
   "theorems": [
    "C25_refuted"
   ],
   "note": "Refuted with a two-point witness."
  },
  {
   "property": "C26",
   "status": "proved",
   "theorems": [
    "C26_circle_nn",
    "C26_circle_knn",
    "C26_circle_radius"
   ],
   "note": ""
  },
  {
   "property": "C27",
   "status": "proved",
   "theorems": [
    "C27_pose_nn",
    "C27_pose_knn",
    "C27_pose_radius"
   ],
   "note": ""
  },
  {
   "property": "C28",
   "status": "proved",
   "theorems": [
    "C28_zero_is_one"
   ],
   "note": ""
  },
  {
   "property": "C29",
   "status": "proved",
   "theorems": [
    "C29_topological_box_search"
   ],
   "note": ""
  },
  {
   "property": "C30",
   "status": "proved",
   "theorems": [
    "C30_radius",
    "C30_nn",
    "C30_knn",
    "C30_box"
   ],
   "note": ""
  },
  {
   "property": "C31",
   "status": "proved",
   "theorems": [
    "C31_axioms",
    "C31_triangle",
    "C31_squared_triangle",
    "C31_lpinf_is_max_norm",
    "C31_lpinf_axioms",
    "C31_scalar_application",
    "C31_lninf_is_min_norm",
    "C31_lninf_scalar_application"
   ],
   "note": ""
  },
  {
   "property": "C32",
   "status": "proved",
   "theorems": [
    "C32_segment_r1_distance",
    "C32_segment_s1_distance",
    "C32_segment_s1_contains",
    "C32_segment_r1_contains"
   ],
   "note": ""
  },
  {
   "property": "C33",
   "status": "proved",
   "theorems": [
    "C33_load_after_save",
    "C33_any_tree"
   ],
   "note": ""
  },
  {
   "property": "C34",
   "status": "proved",
   "theorems": [
    "C34_truncated_load_refuted"
   ],
   "note": "Refuted in the strongest form: for every tree and every proper prefix of its file the load is undefined."
  },
  {
   "property": "C35",
   "status": "proved",
   "theorems": [
    "C35_objects_distinct_and_live",
    "C35_moved_from_refuted"
   ],
   "note": ""
  },
  {
   "property": "C36",
   "status": "proved",
   "theorems": [
    "C36_no_double_free",
    "C36_all_freed",
    "C36_move_assign_refuted"
   ],
   "note": "No double free is proved for every history; that all memory is freed is refuted (move assignment to a non-empty allocator leaks, for every continuation) and proved for histories without such assignments."
  },
  {
   "property": "C37",
   "status": "proved",
   "theorems": [
    "C37_header",
    "C37_round_trip",
    "C37_short_file_refuted"
   ],
   "note": "Proved for files of at least 16 bytes; rejection of shorter files refuted (C37_short_file_refuted)."
  },
  {
   "property": "C38",
   "status": "proved",
   "theorems": [
    "C38_search_knn",
    "C38_search_knn_new",
    "C38_search_radius",
    "C38_search_box"
   ],
   "note": ""
  },
  {
   "property": "C39",
   "status": "proved",
   "theorems": [
    "C39_item",
    "C39_slice"
   ],
   "note": ""
  },
  {
   "property": "C40",
   "status": "proved",
   "theorems": [
    "C40_tree_points",
    "C40_map",
    "C40_unique",
    "C40_single_column_refuted"
   ],
   "note": "Proved; the F-order single column is the one case read differently (C40_single_column_refuted)."
  },
  {
   "property": "C41",
   "status": "proved",
   "theorems": [
    "C41_refuted",
    "C41_nn_within_factor",
    "C41_knn_within_factor",
    "C41_radius_within_factor",
    "C41_nn_true_distance"
   ],
   "note": "Refuted for double by four points in the plane (C41_refuted). What holds instead is proved for every IEEE format, L1 and squared L2, median and sliding midpoint rules: answers are right up to the factor 1+2(2h+n)u (h height of the tree, n dimensions, u=2^-precision), also in terms of exact distances."
  },
  {
   "property": "C42",
   "status": "proved",
   "theorems": [
    "C42_wrapped_value_never_finishes",
    "C42_refuted"
   ],
   "note": "Refuted: whenever the value wraps to a negative index no construction returns, for every point set and rule."
  },
  {
   "property": "C43",
   "status": "proved",
   "theorems": [
    "C43_offsets_restored_euclidean",
    "C43_offsets_restored_topological",
    "C43_box_restored"
   ],
   "note": ""
  },
  {
   "property": "C44",
   "status": "proved",
   "theorems": [
    "C44_longest_side_first",
    "C44_cells_of_a_cube"
   ],
   "note": ""
  },
  {
   "property": "C45",
   "status": "proved",
   "theorems": [
    "C45_root_box_is_tight",
    "C45_branches_are_tight"
   ],
   "note": ""
  },
  {
   "property": "C46",
   "status": "proved",
   "theorems": [
    "C46_load_after_save"
   ],
   "note": ""
  },
  {
   "property": "C47",
   "status": "proved",
   "theorems": [
    "C47_search_knn"
   ],
   "note": ""
  },
  {
   "property": "C48",
   "status": "proved",
   "theorems": [
    "C48_search_radius",
    "C48_search_radius_lpinf"
   ],
   "note": ""
  },
  {
   "property": "C49",
   "status": "proved",
   "theorems": [
    "C49_search_box"
   ],
   "note": ""
  },
  {
   "property": "C50",
   "status": "proved",
   "theorems": [
    "C50_too_many_refuted"
   ],
   "note": "Refuted; C47_search_knn gives the exact content of the surplus entries for all inputs."
  },
  {
   "property": "C51",
   "status": "proved",
   "theorems": [
    "C51_columns_refuted"
   ],
   "note": "Refuted with a two-query witness; C38_search_knn_new gives shape and strides for all inputs."
  },
  {
   "property": "C52",
   "status": "proved",
   "theorems": [
    "C52_resized_refuted",
    "C52_view_refuted"
   ],
   "note": "Both parts refuted; C38_search_knn describes what is written for all inputs."
  },
  {
   "property": "C53",
   "status": "proved",
   "theorems": [
    "C53_dtype",
    "C53_dim_two_or_three",
    "C53_odd_boxes",
    "C53_dim_refuted"
   ],
   "note": "dtype, contiguity, odd box checks proved; dimension check proved for 2-D and 3-D trees and refuted for others."
  },
  {
   "property": "C54",
   "status": "proved",
   "theorems": [
    "C54_many_axes",
    "C54_not_contiguous",
    "C54_one_axis_undefined",
    "C54_one_axis_refuted"
   ],
   "note": "Proved for three or more axes and non-contiguous matrices; for one-dimensional contiguous arrays always undefined (so refuted)."
  },
  {
   "property": "C55",
   "status": "proved",
   "theorems": [
    "C55_other_points_refuted"
   ],
   "note": "Refuted with a witness."
  },
  {
   "property": "C56",
   "status": "proved",
   "theorems": [
    "C56_buffer"
   ],
   "note": ""
  },
  {
   "property": "C57",
   "status": "proved",
   "theorems": [
    "C57_one_dimension",
    "C57_grid"
   ],
   "note": "For L1 and squared L2; trees of the midpoint rule excluded."
  },
  {
   "property": "C58",
   "status": "proved",
   "theorems": [
    "C58_build"
   ],
   "note": ""
  },
  {
   "property": "C59",
   "status": "proved",
   "theorems": [
    "C59_box_search"
   ],
   "note": ""
  },
  {
   "property": "C60",
   "status": "proved",
   "theorems": [
    "C60_refuted",
    "C60_untouched"
   ],
   "note": "Refuted for double (overflow); the general description of what is returned is C60_untouched."
  },
  {
   "property": "C61",
   "status": "proved",
   "theorems": [
    "C61_accuracy"
   ],
   "note": ""
  },
  {
   "property": "C62",
   "status": "proved",
   "theorems": [
    "C62_every_point_once",
    "C62_no_undefined_behaviour",
    "C62_max_distance"
   ],
   "note": ""
  },
  {
   "property": "C63",
   "status": "proved",
   "theorems": [
    "C63_construction_ends",
    "C63_construction_ends_real",
    "C63_refuted",
    "C63_coincident_points_diverge"
   ],
   "note": "Proved for exact arithmetic and real numbers; refuted for double (coinciding points first after the shuffle)."
  },
  {
   "property": "C64",
   "status": "proved",
   "theorems": [
    "C64_nearest_neighbour",
    "C64_k_nearest_neighbours",
    "C64_knn_range",
    "C64_radius",
    "C64_approximate_nn",
    "C64_approximate_knn",
    "C64_approximate_radius",
    "C64_metrics",
    "C64_lpinf",
    "C64_euclidean_nearest_neighbour",
    "C64_euclidean_k_nearest_neighbours",
    "C64_euclidean_radius"
   ],
   "note": "Metrics with a triangle inequality; L2 over real numbers with an exact square root."
  },
  {
   "property": "C65",
   "status": "proved",
   "theorems": [
    "C65_refuted",
    "C65_wrong_neighbour"
   ],
   "note": "Refuted by a witness."
  },
  {
   "property": "C66",
   "status": "proved",
   "theorems": [
    "C66_construction",
    "C66_at_least_one_tree",
    "C66_reflections_keep_distances"
   ],
   "note": ""
  },
  {
   "property": "C67",
   "status": "proved",
   "theorems": [
    "C67_nearest_neighbour"
   ],
   "note": ""
  },
  {
   "property": "C68",
   "status": "proved",
   "theorems": [
    "C68_genuine_neighbour",
    "C68_work_per_tree",
    "C68_any_visitor",
    "C68_no_leaves"
   ],
   "note": ""
  },
  {
   "property": "C69",
   "status": "proved",
   "theorems": [
    "C69_refuted"
   ],
   "note": ""
  },
  {
   "property": "C70",
   "status": "proved",
   "theorems": [
    "C70_refuted"
   ],
   "note": ""
  },
  {
   "property": "C71",
   "status": "proved",
   "theorems": [
    "C71_space_map",
    "C71_space_map_two_arguments",
    "C71_short_buffer_undefined",
    "C71_array_of_points",
    "C71_matrix_space",
    "C71_nearest_in_array",
    "C71_point_map"
   ],
   "note": ""
  },
  {
   "property": "C72",
   "status": "proved",
   "theorems": [
    "C72_missing_dimension",
    "C72_fixed_extent",
    "C72_refuted",
    "C72_range_refuted"
   ],
   "note": ""
  },
  {
   "property": "C73",
   "status": "proved",
   "theorems": [
    "C73_eigen_space",
    "C73_eigen_point",
    "C73_matrix",
    "C73_column_query",
    "C73_nearest_column"
   ],
   "note": ""
  },
  {
   "property": "C74",
   "status": "proved",
   "theorems": [
    "C74_inner_stride_refuted",
    "C74_row_query_refuted",
    "C74_row_query_reads",
    "C74_single_is_one_point"
   ],
   "note": ""
  },
  {
   "property": "C75",
   "status": "proved",
   "theorems": [
    "C75_opencv_space",
    "C75_nearest_row"
   ],
   "note": ""
  },
  {
   "property": "C76",
   "status": "proved",
   "theorems": [
    "C76_refuted"
   ],
   "note": ""
  },
  {
   "property": "C77",
   "status": "proved",
   "theorems": [
    "C77_dynamic_space",
    "C77_same_tree"
   ],
   "note": ""
  },
  {
   "property": "C78",
   "status": "proved",
   "theorems": [
    "C78_round_trip",
    "C78_any_file",
    "C78_cannot_open"
   ],
   "note": ""
  },
  {
   "property": "C79",
   "status": "proved",
   "theorems": [
    "C79_refuted"
   ],
   "note": "Refuted by a witness."
  },
  {
   "property": "C80",
   "status": "proved",
   "theorems": [
    "C80_big_endian",
    "C80_host",
    "C80_swap"
   ],
   "note": ""
  },
  {
   "property": "C81",
   "status": "proved",
   "theorems": [
    "C81_images",
    "C81_labels",
    "C81_other_files"
   ],
   "note": ""
  },
  {
   "property": "C82",
   "status": "proved",
   "theorems": [
    "C82_truncated_images",
    "C82_truncated_labels",
    "C82_refuted",
    "C82_header"
   ],
   "note": "Refuted for truncated files by a witness; C82_truncated_* say in general what is read, C82_header what the header leads to."
  },
  {
   "property": "C83",
   "status": "proved",
   "theorems": [
    "C83_rows",
    "C83_name"
   ],
   "note": ""
  },
  {
   "property": "C84",
   "status": "proved",
   "theorems": [
    "C84_refuted"
   ],
   "note": "Refuted by a witness."
  },
  {
   "property": "C85",
   "status": "proved",
   "theorems": [
    "C85_motion",
    "C85_keeps_distances"
   ],
   "note": "Over the real numbers (standard library Reals axioms)."
  },
  {
   "property": "C86",
   "status": "proved",
   "theorems": [
    "C86_lines",
    "C86_directory",
    "C86_names",
    "C86_ascii"
   ],
   "note": ""
  },
  {
   "property": "C87",
   "status": "proved",
   "theorems": [
    "C87_refuted",
    "C87_names_refuted",
    "C87_missing_pose",
    "C87_short_pose"
   ],
   "note": "Refuted by witnesses; C87_missing_pose and C87_short_pose hold in general."
  },
  {
   "property": "C88",
   "status": "proved",
   "theorems": [
    "C88_nearest_neighbour",
    "C88_k_nearest_neighbours",
    "C88_radius",
    "C88_approximate_nn",
    "C88_approximate_knn",
    "C88_approximate_radius"
   ],
   "note": "metric_fits (Spec.v) spells out the condition on the metric."
  },
  {
   "property": "C89",
   "status": "proved",
   "theorems": [
    "C89_nearest_neighbour",
    "C89_k_nearest_neighbours",
    "C89_radius"
   ],
   "note": ""
  },
  {
   "property": "C90",
   "status": "proved",
   "theorems": [
    "C90_nearest_neighbour",
    "C90_k_nearest_neighbours",
    "C90_radius"
   ],
   "note": ""
  },
  {
   "property": "C91",
   "status": "proved",
   "theorems": [
    "C91_counter"
   ],
   "note": ""
  },
  {
   "property": "C92",
   "status": "proved",
   "theorems": [
    "C92_refuted"
   ],
   "note": "Refuted by three points in the plane; C88 says what a metric has to satisfy."
  },
  {
   "property": "C93",
   "status": "proved",
   "theorems": [
    "C93_radius",
    "C93_knn"
   ],
   "note": ""
  },
  {
   "property": "C94",
   "status": "proved",
   "theorems": [
    "C94_once_per_tree"
   ],
   "note": ""
  },
  {
   "property": "C95",
   "status": "proved",
   "theorems": [
    "C95_more_trees",
    "C95_more_leaves"
   ],
   "note": ""
  },
  {
   "property": "C96",
   "status": "proved",
   "theorems": [
    "C96_no_use_after_free",
    "C96_new_outputs",
    "C96_no_double_free"
   ],
   "note": "The conditions on existing outputs are `careful` (SpecLife.v): an array that is resized, or a DArray whose results do not fit, has no views and iterators. C96_new_outputs has no such condition."
  },
  {
   "property": "C97",
   "status": "proved",
   "theorems": [
    "C97_load_refuted",
    "C97_load_kept"
   ],
   "note": "Refuted as stated; C97_load_kept is what holds."
  },
  {
   "property": "C98",
   "status": "proved",
   "theorems": [
    "C98_iterate_refuted",
    "C98_iterate_kept"
   ],
   "note": "Refuted as stated; C98_iterate_kept is what holds (it also covers loaded trees)."
  },
  {
   "property": "C99",
   "status": "proved",
   "theorems": [
    "C99_refill_refuted",
    "C99_resize_refuted",
    "C99_shrink_refuted",
    "C99_refill_in_place"
   ],
   "note": "The three refutations are the ways it fails; C96 and C98 prove that nothing goes wrong when results fit or there are no views; C99_refill_in_place is the allocation claim."
  },
  {
   "property": "C100",
   "status": "proved",
   "theorems": [
    "C100_everything_is_freed",
    "C100_one_owner"
   ],
   "note": "Memory is: arrays, vectors of DArrays. The nodes and indices of trees are C35 and C36."
  },
  {
   "property": "C101",
   "status": "proved",
   "theorems": [
    "C101_tree_shares_points",
    "C101_item_is_view",
    "C101_next_is_view",
    "C101_slice_is_copy",
    "C101_knn_result_is_independent",
    "C101_results_have_room"
   ],
   "note": ""
  },
  {
   "property": "C102",
   "status": "proved",
   "theorems": [
    "C102_construction_terminates",
    "C102_nearest_neighbour",
    "C102_k_nearest_neighbours",
    "C102_radius",
    "C102_visitor"
   ],
   "note": "int_tree and int_query (SpecInt.v) spell out 'small enough'. Types narrower than int: C149."
  },
  {
   "property": "C103",
   "status": "proved",
   "theorems": [
    "C103_box_search"
   ],
   "note": ""
  },
  {
   "property": "C104",
   "status": "proved",
   "theorems": [
    "C104_refuted",
    "C104_nn_genuine",
    "C104_radius_genuine"
   ],
   "note": "Refuted by a witness; C102 gives the condition under which it holds. Overflow is modelled as wrapping around here; C104_nn_genuine and C104_radius_genuine say what is reported then."
  },
  {
   "property": "C105",
   "status": "proved",
   "theorems": [
    "C105_nn_genuine",
    "C105_radius_genuine"
   ],
   "note": ""
  },
  {
   "property": "C106",
   "status": "proved",
   "theorems": [
    "C106_nearest_refuted",
    "C106_radius_refuted"
   ],
   "note": "Refuted by witnesses."
  },
  {
   "property": "C107",
   "status": "proved",
   "theorems": [
    "C107_construction_terminates",
    "C107_coincident_points"
   ],
   "note": ""
  },
  {
   "property": "C108",
   "status": "proved",
   "theorems": [
    "C108_never_a_tree",
    "C108_endless"
   ],
   "note": ""
  },
  {
   "property": "C109",
   "status": "proved",
   "theorems": [
    "C109_refuted",
    "C109_radius_finds_nothing",
    "C109_nn_reports_zero"
   ],
   "note": "Refuted as stated; the other two theorems say in general what happens for e >= 2."
  },
  {
   "property": "C110",
   "status": "proved",
   "theorems": [
    "C110_pointers_transparent"
   ],
   "note": "What is left of the space, indices and box of an object that was moved from is an arbitrary function (moved_parts). std_in_place: std::partition and std::nth_element keep the length of their range."
  },
  {
   "property": "C111",
   "status": "proved",
   "theorems": [
    "C111_all_freed"
   ],
   "note": "C111_leak shows that the hypothesis is needed."
  },
  {
   "property": "C112",
   "status": "proved",
   "theorems": [
    "C112_memory_in_use"
   ],
   "note": ""
  },
  {
   "property": "C113",
   "status": "proved",
   "theorems": [
    "C113_moved_from_refuted"
   ],
   "note": "Refuted by two witnesses."
  },
  {
   "property": "C114",
   "status": "proved",
   "theorems": [
    "C114_end_to_end"
   ],
   "note": "Trees loaded from files are excluded (no_load); for them see C33, C34 and C110."
  },
  {
   "property": "C115",
   "status": "proved",
   "theorems": [
    "C115_stale_safe",
    "C115_load_other_points"
   ],
   "note": "with_points: the same tree object, referring to other points; modified: same dimension, at least as many points."
  },
  {
   "property": "C116",
   "status": "proved",
   "theorems": [
    "C116_stale_nn"
   ],
   "note": "The sentinel is returned only if no distance is below the largest scalar."
  },
  {
   "property": "C117",
   "status": "proved",
   "theorems": [
    "C117_stale_knn"
   ],
   "note": "If points were appended, the entries after the first min(k, original number) are not covered; see C120."
  },
  {
   "property": "C118",
   "status": "proved",
   "theorems": [
    "C118_stale_radius"
   ],
   "note": ""
  },
  {
   "property": "C119",
   "status": "proved",
   "theorems": [
    "C119_stale_box"
   ],
   "note": "Euclidean metrics (box search of a topological tree tests other conditions, C16)."
  },
  {
   "property": "C120",
   "status": "proved",
   "theorems": [
    "C120_moved_points_refuted",
    "C120_appended_points_refuted",
    "C120_removed_points_refuted"
   ],
   "note": "Refuted by three witnesses."
  },
  {
   "property": "C121",
   "status": "proved",
   "theorems": [
    "C121_node_count",
    "C121_depth_limited"
   ],
   "note": ""
  },
  {
   "property": "C122",
   "status": "proved",
   "theorems": [
    "C122_recursion_is_height",
    "C122_height"
   ],
   "note": "The fuel of the model is the number of nested calls of create_node that are allowed."
  },
  {
   "property": "C123",
   "status": "proved",
   "theorems": [
    "C123_coincident_points",
    "C123_coincident_group",
    "C123_refuted"
   ],
   "note": "Refuted for every constant; the other two theorems say in general how deep it gets. The number of points handed to std::partition per branch is counted (split_work), not time."
  },
  {
   "property": "C124",
   "status": "proved",
   "theorems": [
    "C124_median"
   ],
   "note": "Counts the points handed to std::nth_element (split_work), not time."
  },
  {
   "property": "C125",
   "status": "proved",
   "theorems": [
    "C125_file_size"
   ],
   "note": "Scalars aligned to their size, size_t of 8 bytes and int of 4."
  },
  {
   "property": "C126",
   "status": "proved",
   "theorems": [
    "C126_nearest_neighbour",
    "C126_k_nearest_neighbours",
    "C126_radius",
    "C126_box"
   ],
   "note": "Box search for Euclidean metrics; order laws only, so for floats as well."
  },
  {
   "property": "C127",
   "status": "proved",
   "theorems": [
    "C127_nn_is_first",
    "C127_radius_is_prefix"
   ],
   "note": "Prefixes of search_knn are C126_k_nearest_neighbours with one tree twice."
  },
  {
   "property": "C128",
   "status": "proved",
   "theorems": [
    "C128_nearest_neighbour",
    "C128_k_nearest_neighbours",
    "C128_radius"
   ],
   "note": "For exact arithmetic."
  },
  {
   "property": "C129",
   "status": "proved",
   "theorems": [
    "C129_refuted",
    "C129_nn_tolerated",
    "C129_knn_tolerated",
    "C129_radius_tolerated",
    "C129_factor_one"
   ],
   "note": "The statement without rounding terms is refuted (C129_refuted); the theorems give it with them, for every IEEE format, L1 and L2 squared."
  },
  {
   "property": "C130",
   "status": "proved",
   "theorems": [
    "C130_nearest_is_safe",
    "C130_box_is_safe",
    "C130_loaded_trees_refuted"
   ],
   "note": "Box search for Euclidean metrics. The safety is proved; that load establishes its premise is refuted by a witness (C130_loaded_trees_refuted)."
  },
  {
   "property": "C131",
   "status": "proved",
   "theorems": [
    "C131_nn",
    "C131_knn",
    "C131_radius",
    "C131_box",
    "C131_made",
    "C131_in_range_refuted"
   ],
   "note": "Box search for Euclidean metrics. tree_of is the premise; in_range alone is refuted."
  },
  {
   "property": "C132",
   "status": "proved",
   "theorems": [
    "C132_canonical"
   ],
   "note": "Padding bytes are not read by load, so the theorem quantifies over them existentially."
  },
  {
   "property": "C133",
   "status": "proved",
   "theorems": [
    "C133_load_ends",
    "C133_consumed",
    "C133_depth_refuted"
   ],
   "note": "The depth bound by the number of points is refuted for every k."
  },
  {
   "property": "C134",
   "status": "proved",
   "theorems": [
    "C134_double",
    "C134_float",
    "C134_any_tree",
    "C134_canonical"
   ],
   "note": "Rule other than midpoint_max_side for the trees made from points (C05); C134_any_tree covers all data. NaNs are one value."
  },
  {
   "property": "C135",
   "status": "proved",
   "theorems": [
    "C135_separated",
    "C135_floats"
   ],
   "note": "Level minus one or its inverse plus one, as the code computes them: in exact arithmetic the same (C136)."
  },
  {
   "property": "C136",
   "status": "proved",
   "theorems": [
    "C136_refuted",
    "C136_covering",
    "C136_euclidean"
   ],
   "note": "C136_statement (all bases above one) is refuted by computation with base 1.3; C136_covering needs base >= 2."
  },
  {
   "property": "C137",
   "status": "proved",
   "theorems": [
    "C137_refuted",
    "C137_nearest_ancestor"
   ],
   "note": "C137_statement (all bases above one) is refuted by computation with base 1.3; C137_nearest_ancestor needs base >= 2."
  },
  {
   "property": "C138",
   "status": "proved",
   "theorems": [
    "C138_visited_cells",
    "C138_builtin_metrics",
    "C138_parts"
   ],
   "note": "Euclidean category, exact scalars, all rules but midpoint_max_side. The parts are cut at the middle of the gaps, as the search decides."
  },
  {
   "property": "C139",
   "status": "proved",
   "theorems": [
    "C139_format",
    "C139_refuted",
    "C139_four_bytes",
    "C139_holes"
   ],
   "note": "C139_statement (same bytes every time) is refuted for doubles; C139_four_bytes and C139_holes say what holds. Sizes of int and size_t as on 64-bit machines."
  },
  {
   "property": "C140",
   "status": "proved",
   "theorems": [
    "C140_within_factor",
    "C140_circle_exact",
    "C140_circle_accuracy",
    "C140_circle_true_distance",
    "C140_circle_below_one",
    "C140_circle_factor_refuted",
    "C140_torus_accuracy",
    "C140_grid"
   ],
   "note": "Factor form for all three metrics, exact for one circle and for grids; accuracy of the distances for one circle and for tori. `C140_circle_factor_refuted` has a witness in double."
  },
  {
   "property": "C141",
   "status": "proved",
   "theorems": [
    "C141_refuted",
    "C141_l1",
    "C141_l1_exact",
    "C141_l2",
    "C141_l2_exact",
    "C141_grid"
   ],
   "note": "C141_statement (nearest for the computed distances) is refuted by computation. C141_l1, C141_l2 and their _exact forms bound the error by the extent w of the points; C141_grid is exact. std::sqrt is assumed to round correctly (IEEE 754)."
  },
  {
   "property": "C142",
   "status": "proved",
   "theorems": [
    "C142_refuted",
    "C142_search_knn",
    "C142_search_knn_approx",
    "C142_search_radius",
    "C142_search_radius_approx",
    "C142_search_knn_grid",
    "C142_search_radius_grid",
    "C142_search_box"
   ],
   "note": "C142_statement (least computed distance) is refuted by computation with the points of C41. The bound on the factor needs no knowledge of the tree: its height is at most npts - leaf (C122). Column-major queries: see C51."
  },
  {
   "property": "C143",
   "status": "proved",
   "theorems": [
    "C143_build_refuted",
    "C143_build",
    "C143_box",
    "C143_nn",
    "C143_radius",
    "C143_knn_range",
    "C143_knn",
    "C143_knn_refuted",
    "C143_nan_build_refuted",
    "C143_nan_refuted"
   ],
   "note": "Searches: the lower bounds are those of the space with infinite coordinates replaced by 2^e, by an argument that a subtree with a finite point is entered or has finite bounds; subtrees of infinite points may be bounded by NaN, which is harmless because nothing in them is ever reported. The NaN refutation needs a standard library whose nth_element is insertion sort; the laws of the standard library say nothing about comparators that are no strict weak order."
  },
  {
   "property": "C144",
   "status": "proved",
   "theorems": [
    "C144_midpoint_ends_iff",
    "C144_midpoint_depth",
    "C144_sliding_depth",
    "C144_float_refuted",
    "C144_float_midpoint_depth",
    "C144_float_sliding_depth"
   ],
   "note": "The same argument for both kinds of numbers (SpreadThms.v): the longest side is halved, so a level costs one of the k_d; once all are used up the points of a node are pairwise close. In floating point the computed side after rounding shrinks to half plus an absolute error of 4 half-ulps of 2^(e+1), whence the factor 2 and the lower limit on delta."
  },
  {
   "property": "C145",
   "status": "proved",
   "theorems": [
    "C145_throws_clean",
    "C145_answers",
    "C145_all_freed"
   ],
   "note": "try_step is the step of the heap model with a place where it fails; C145_throws_clean is stated for all places at once (functions from places to bool). Exceptions while moving, destroying or querying are not modelled (moves and destructors are noexcept in effect; queries only allocate in the caller's vector)."
  },
  {
   "property": "C146",
   "status": "proved",
   "theorems": [
    "C146_memory_needed"
   ],
   "note": "The count is of chunks of nodes; vectors and boxes are assumed to get their memory."
  },
  {
   "property": "C147",
   "status": "proved",
   "theorems": [
    "C147_stream_throws",
    "C147_truncated_load_throws"
   ],
   "note": "Positive counterpart of C34. The second theorem has the hypotheses of C34 and `decodes`: decoding a scalar from bytes is not itself a short read."
  },
  {
   "property": "C148",
   "status": "proved",
   "theorems": [
    "C148_nn_within_factor",
    "C148_knn_within_factor",
    "C148_radius_within_factor",
    "C148_distances_accurate",
    "C148_uncontracted",
    "C148_same_answer_refuted",
    "C148_grid_exact"
   ],
   "note": "The model over-approximates compilers: every subset of the sums may be contracted. fused_few (3h + n + 1 <= 2^prec / 16) and apart (no underflow of squares) are hypotheses of the theorems with a factor; h is the height of the tree. C148_grid_exact needs neither, but coordinates on a grid (grid_input, as in C57)."
  },
  {
   "property": "C149",
   "status": "proved",
   "theorems": [
    "C149_nearest_neighbour",
    "C149_k_nearest",
    "C149_radius",
    "C149_no_room_refuted",
    "C149_modulo",
    "C149_int_overflow"
   ],
   "note": "narrow_input (SpecNarrow.v) spells out the room that distances need: n times the largest term below the largest value of the type. int has 32 bits; what an overflowing int does (iovf) is arbitrary. Construction is that of C102/C107, box searches those of C103, for the same scalar types. C149_no_room_refuted and C149_modulo describe what happens without room, C149_int_overflow the undefined behaviour for uint16_t."
  },
  {
   "property": "C150",
   "status": "proved",
   "theorems": [
    "C150_brute_force",
    "C150_brute_force_undefined",
    "C150_test_knn",
    "C150_test_radius",
    "C150_test_box",
    "C150_test_box_topological",
    "C150_knn_detects",
    "C150_radius_detects",
    "C150_box_detects",
    "C150_box_detects_topological",
    "C150_box_duplicates_refuted",
    "C150_radius_duplicates_refuted",
    "C150_knn_indices_refuted"
   ],
   "note": "GoogleTest comparisons are parameters float_eq and float_le; the theorems that tests pass only assume that they accept equal (smaller or equal) values, C150_knn_detects that float_eq accepts nothing else. usable, distances_fit, exact_laws and field_laws as in C14-C21. Box maps of both space categories are covered."
  },
  {
   "property": "C151",
   "status": "proved",
   "theorems": [
    "C151_ground_truth",
    "C151_stale_file",
    "C151_counts",
    "C151_precision_one",
    "C151_ties_refuted"
   ],
   "note": "Hypotheses as in C10 (tree), C67 and C68 (forest, unit reflections) and C78 (files). Reading the data sets is C81 to C84; timing and printing are not modelled, nor is the division of the two counts as floats. The object representation of a neighbor is a parameter c."
  },
  {
   "property": "C152",
   "status": "proved",
   "theorems": [
    "C152_leaf_depth",
    "C152_leaf_size",
    "C152_full_tree_refuted"
   ],
   "note": "Hypotheses as in C03, C04 and C08. full_tree_statement is the expectation of the test LeafRanges; the test passes for the points it draws unless the first split leaves a single point on one side."
  }
 ]
}