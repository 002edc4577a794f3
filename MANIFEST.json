{
 "claims": [
  {
   "property": "C01",
   "status": "proved",
   "theorems": [
    "C01_graph_is_edge_map",
    "C01_spec_deterministic",
    "C01_vertex_data"
   ],
   "note": "all histories of addVertex/addEdge/removeEdge/clear; axiom free"
  },
  {
   "property": "C02",
   "status": "proved",
   "theorems": [
    "C02_throwing_mutators",
    "C02_remove_undoes_add"
   ],
   "note": "removeEdge never throws; it returns false without changes"
  },
  {
   "property": "C15",
   "status": "proved",
   "theorems": [
    "C15_path_graph",
    "C15_cycle_graph",
    "C15_complete_graph",
    "C15_star_graph",
    "C15_grid_graph",
    "C15_path_cycle_zero_throws"
   ],
   "note": "finding: createPathGraph(0)/createCycleGraph(0) throw because n-1 wraps"
  },
  {
   "property": "C03",
   "status": "proved",
   "theorems": [
    "C03_bfs",
    "C03_bfs_bad_start",
    "C03_bfs_visit"
   ],
   "note": "for every graph built through the API; all fuel bounds are existential lower bounds, i.e. termination is part of the statement"
  },
  {
   "property": "C04",
   "status": "proved",
   "theorems": [
    "C04_dfs",
    "C04_dfs_visit",
    "C04_dfs_parent_not_tree_refuted"
   ],
   "note": "visit order is the recursive preorder; parents are visited earlier and adjacent; the pointers are not those of the recursive DFS tree (refuted with a witness)"
  },
  {
   "property": "C13",
   "status": "proved",
   "theorems": [
    "C13_reconstruct_sound",
    "C13_reconstruct_bfs",
    "C13_reconstruct_dfs",
    "C13_shortest_path_unweighted",
    "C13_reconstruct_wrong_start_refuted"
   ],
   "note": "parent arrays from BFS/DFS (Dijkstra under C05); with a foreign start the returned path does not begin at start (refuted)"
  },
  {
   "property": "C05",
   "status": "proved",
   "theorems": [
    "C05_dijkstra",
    "C05_dijkstra_unreachable",
    "C05_dijkstra_double",
    "C05_negative_edge_diverges"
   ],
   "note": "for any arithmetic satisfying the order laws; IEEE binary64 is proved to satisfy them (GraphAlg_Float.v); a negative undirected edge is shown to make it run forever"
  },
  {
   "property": "C06",
   "status": "proved",
   "theorems": [
    "C06_dijkstra_path",
    "C06_dijkstra_path_invalid",
    "C06_agrees_with_dijkstra"
   ],
   "note": "includes start = target and out-of-range indices"
  },
  {
   "property": "C07",
   "status": "proved",
   "theorems": [
    "C07_bellman_ford",
    "C07_has_negative_cycle",
    "C07_has_negative_cycle_bad_start"
   ],
   "note": "exact arithmetic: any totally ordered abelian group of weights, so no rounding; finding: HasNegativeCycle answers true for a start index that is not a vertex"
  },
  {
   "property": "C08",
   "status": "proved",
   "theorems": [
    "C08_topological_sort",
    "C08_is_dag",
    "C08_undirected"
   ],
   "note": "directed graphs; undirected non-empty graphs are always reported as non-DAG"
  },
  {
   "property": "C09",
   "status": "proved",
   "theorems": [
    "C09_connected_components",
    "C09_is_connected",
    "C09_directed_refuted"
   ],
   "note": "undirected graphs; on directed graphs the classes are not components (refuted with a witness)"
  },
  {
   "property": "C10",
   "status": "proved",
   "theorems": [
    "C10_union_find"
   ],
   "note": "every history of unite/find; termination of find included"
  },
  {
   "property": "C11",
   "status": "proved",
   "theorems": [
    "C11_kruskal"
   ],
   "note": "exact arithmetic (any totally ordered abelian group of weights); minimality over all spanning forests"
  },
  {
   "property": "C12",
   "status": "proved",
   "theorems": [
    "C12_prim",
    "C12_prim_kruskal_agree"
   ],
   "note": "exact arithmetic; tree of the start's component; out-of-range start means vertex 0"
  },
  {
   "property": "C14",
   "status": "proved",
   "theorems": [
    "C14_adjacency",
    "C14_laplacian",
    "C14_laplacian_selfloop_refuted",
    "C14_normalized_laplacian"
   ],
   "note": "exact arithmetic over any commutative ring (reals for the normalized Laplacian); sizes the Matrix constructor accepts; with self loops L = D - A is false (refuted)"
  },
  {
   "property": "C32",
   "status": "proved",
   "theorems": [
    "C32_operations",
    "C32_product",
    "C32_nonconforming",
    "C32_additive_laws",
    "C32_multiplicative_laws",
    "C32_identity_trace",
    "C32_divide_assign_alias_refuted",
    "C32_scale_assign_alias_refuted"
   ],
   "note": "exact arithmetic over any commutative ring; m /= m(0,0) and m *= m(0,0) read a scalar that the loop overwrites (refuted)"
  },
  {
   "property": "C16",
   "status": "proved",
   "theorems": [
    "C16_ctor",
    "C16_exactly_once",
    "C16_destructor",
    "C16_workers_live"
   ],
   "note": "transition system with all interleavings, spurious wake-ups and calls from inside tasks; contract of the destructor (no other client call in progress) built into the model"
  },
  {
   "property": "C17",
   "status": "proved",
   "theorems": [
    "C17_barrier",
    "C17_wait_inside_task"
   ],
   "note": "at the return of wait_for_tasks; a call from inside a task is proved never to return"
  },
  {
   "property": "C18",
   "status": "proved",
   "theorems": [
    "C18_no_deadlock",
    "C18_terminates",
    "C18_eventually"
   ],
   "note": "assumes tasks end and that no task itself waits inside wait_for_tasks (which deadlocks, C17_wait_inside_task_witness)"
  },
  {
   "property": "C19",
   "status": "proved",
   "theorems": [
    "C19_recorded",
    "C19_take",
    "C19_after_wait",
    "C16_workers_live"
   ],
   "note": ""
  },
  {
   "property": "C33",
   "status": "proved",
   "theorems": [
    "C33_invert",
    "C33_singular_throws",
    "C33_not_square",
    "C33_zero_matrix_refuted"
   ],
   "note": "Exact arithmetic over any field with an ordered magnitude. Success gives a two-sided inverse; a throw comes with a vector that the matrix sends below the threshold eps*max*n; singular non-zero matrices always throw. The zero matrix does not throw (refuted clause)."
  },
  {
   "property": "C34",
   "status": "proved",
   "theorems": [
    "C34_gauss_jordan",
    "C34_singular_throws",
    "C34_nonconforming",
    "C34_vector"
   ],
   "note": "Exact arithmetic over any field with an ordered magnitude. B becomes the unique solution, A its inverse; every singular A throws; each kind of throw comes with its certificate."
  },
  {
   "property": "C35",
   "status": "proved",
   "theorems": [
    "C35_constructor",
    "C35_solve",
    "C35_singular_throws",
    "C35_bad_shape",
    "C35_determinant",
    "C35_solve_matrix",
    "C35_solve_matrix_new",
    "C35_inverse",
    "C35_bad_rhs"
   ],
   "note": "Exact arithmetic over any field with an ordered magnitude; determinant specified by Laplace expansion; a throw comes with a certificate of (near) singularity."
  },
  {
   "property": "C37",
   "status": "proved",
   "theorems": [
    "C37_constructor",
    "C37_factor",
    "C37_solve",
    "C37_bad_input",
    "C37_inverse",
    "C37_logdet",
    "C37_asymmetric_accepted_refuted"
   ],
   "note": "Over the standard library's reals (exact square roots). For a symmetric A the constructor returns iff A is positive definite. Matrices that are asymmetric within the tolerance are accepted and only their upper triangle is used (refuted clause)."
  },
  {
   "property": "C36",
   "status": "proved",
   "theorems": [
    "C36_constructor",
    "C36_solve",
    "C36_bad_rhs",
    "C36_singular_throws",
    "C36_determinant",
    "C36_solve_matrix",
    "C36_bad_matrix_rhs",
    "C36_zero_matrix_refuted",
    "C36_wide_band_refuted"
   ],
   "note": "Exact arithmetic over any field with an ordered magnitude. The zero matrix is accepted and more than dim subdiagonals is undefined behaviour (refuted clauses)."
  },
  {
   "property": "C45",
   "status": "proved",
   "theorems": [
    "C45_element",
    "C45_mul_vec",
    "C45_mul_vec_bad",
    "C45_full",
    "C45_trace",
    "C45_linear",
    "C45_shape_mismatch",
    "C45_transpose",
    "C45_equal_sound",
    "C45_equal_complete_refuted"
   ],
   "note": "The converse of the IsEqualTo clause is false: the padding cells are compared too (refuted)."
  },
  {
   "property": "C28",
   "status": "proved",
   "theorems": [
    "C28_eval",
    "C28_coefficients",
    "C28_values",
    "C28_reduce",
    "C28_is_equal",
    "C28_constructors",
    "C28_accessors",
    "C28_set_degree",
    "C28_empty_product_refuted"
   ],
   "note": "over any commutative ring; one clause is false of the code: the product of two coefficient-less polynomials throws std::length_error (C28_empty_product_refuted)"
  },
  {
   "property": "C29",
   "status": "proved",
   "theorems": [
    "C29_division",
    "C29_zero_divisor",
    "C29_short_dividend_refuted"
   ],
   "note": "over any field; the clause 'no undefined behaviour' is false of the code when the dividend has fewer than deg v coefficients (C29_short_dividend_refuted, for all such inputs); everything else including uniqueness is proved"
  },
  {
   "property": "C30",
   "status": "proved",
   "theorems": [
    "C30_derivative",
    "C30_rules",
    "C30_derive",
    "C30_derive_empty_refuted",
    "C30_integral",
    "C30_analytic"
   ],
   "note": "any commutative ring (derivative, Derive), any field of characteristic zero (integral), the reals (analytic derivative); Derive on an empty polynomial or vector is undefined behaviour (C30_derive_empty_refuted)"
  },
  {
   "property": "C31",
   "status": "proved",
   "theorems": [
    "C31_interpolates",
    "C31_bad_input"
   ],
   "note": "over any field, with uniqueness"
  },
  {
   "property": "C27",
   "status": "proved",
   "theorems": [
    "C27_contains",
    "C27_composite",
    "C27_complement",
    "C27_intersection",
    "C27_union",
    "C27_union_interior",
    "C27_difference",
    "C27_difference_interior",
    "C27_bounds",
    "C27_intersects",
    "C27_difference_refuted",
    "C27_union_refuted",
    "C27_intersection_refuted",
    "C27_intersects_refuted"
   ],
   "note": "over any strict weak order; the four _refuted theorems give, for all inputs of the stated shape, the single-point errors of the code; classes with recurring holes are not modelled"
  },
  {
   "property": "C46",
   "status": "proved",
   "theorems": [
    "C46_covering",
    "C46_nothing",
    "C46_unbounded_refuted"
   ],
   "note": "over the reals"
  },
  {
   "property": "C38",
   "status": "proved",
   "theorems": [
    "C38_bisection",
    "C38_near_root",
    "C38_converges",
    "C38_rejects"
   ],
   "note": "exact real arithmetic; non-finite function values modelled as None"
  },
  {
   "property": "C39",
   "status": "proved",
   "theorems": [
    "C39_bracket",
    "C39_bracket_at_once",
    "C39_bracket_bad",
    "C39_brackets",
    "C39_brackets_roots",
    "C39_brackets_complete",
    "C39_bracket_false_refuted",
    "C39_size_refuted"
   ],
   "note": "exact real arithmetic, function values finite"
  },
  {
   "property": "C40",
   "status": "proved",
   "theorems": [
    "C40_false_position",
    "C40_ridders",
    "C40_brent",
    "C40_brent_near_root",
    "C40_false_position_near_root",
    "C40_rejects",
    "C40_ridders_sentinel_refuted",
    "C40_ridders_root_refuted"
   ],
   "note": "exact real arithmetic; the two _refuted theorems show what Ridders does not guarantee"
  },
  {
   "property": "C47",
   "status": "proved",
   "theorems": [
    "C47_newton",
    "C47_secant",
    "C47_rejects",
    "C47_affine"
   ],
   "note": "exact real arithmetic; the derivative estimate of Newton is an arbitrary function"
  },
  {
   "property": "C41",
   "status": "proved",
   "theorems": [
    "C41_build",
    "C41_nearest",
    "C41_knearest",
    "C41_radius",
    "C41_box",
    "C41_euclid",
    "C41_double",
    "C41_brute_force",
    "C41_leaf_size_refuted",
    "C41_brute_overflow_refuted"
   ],
   "note": "parametric arithmetic satisfied by exact numbers and by IEEE doubles with finite coordinates; any nth_element meeting the standard's contract"
  },
  {
   "property": "C42",
   "status": "proved",
   "theorems": [
    "C42_convex",
    "C42_contains",
    "C42_half_planes",
    "C42_not_collinear",
    "C42_integer_points",
    "C42_order_independent",
    "C42_hull_size",
    "C42_tolerance_refuted"
   ],
   "note": "exact real arithmetic, points resolved by the tolerance (for example integer coordinates); the _refuted theorem shows what happens otherwise"
  },
  {
   "property": "C43",
   "status": "proved",
   "theorems": [
    "C43_inside_clip",
    "C43_inside_subject",
    "C43_boundary",
    "C43_keeps",
    "C43_unchanged",
    "C43_outside",
    "C43_exact",
    "C43_rect",
    "C43_clockwise_refuted",
    "C43_union_refuted"
   ],
   "note": "exact real arithmetic; any tolerance >= 0 except C43_exact and C43_rect, which are for tolerance zero"
  },
  {
   "property": "C20",
   "status": "proved",
   "theorems": [
    "C20_roundtrip",
    "C20_limits"
   ],
   "note": "any element type with an injective fixed-width encoding; sizes, element bytes and trailing bytes arbitrary"
  },
  {
   "property": "C21",
   "status": "proved",
   "theorems": [
    "C21_any_file",
    "C21_truncated_refuted",
    "C21_short_refuted"
   ],
   "note": "the statement as amended; the two _refuted theorems show what the loader does not reject"
  },
  {
   "property": "C22",
   "status": "proved",
   "theorems": [
    "C22_roundtrip",
    "C22_any_file",
    "C22_real_roundtrip"
   ],
   "note": "any element type with an injective fixed-width encoding"
  },
  {
   "property": "C23",
   "status": "proved",
   "theorems": [
    "C23_split_join",
    "C23_field_count",
    "C23_trim",
    "C23_bom"
   ],
   "note": "all strings"
  },
  {
   "property": "C24",
   "status": "proved",
   "theorems": [
    "C24_string",
    "C24_string_empty",
    "C24_file",
    "C24_file_empty",
    "C24_agree",
    "C24_write_read"
   ],
   "note": "std::stod and the printing of reals are parameters"
  },
  {
   "property": "C48",
   "status": "proved",
   "theorems": [
    "C48_classify",
    "C48_values",
    "C48_regex",
    "C48_sound",
    "C48_uniform",
    "C48_permutation",
    "C48_integers",
    "C48_threshold_double",
    "C48_truncation_refuted",
    "C48_range_refuted"
   ],
   "note": "std::stod is a parameter; the _refuted theorems show what the inference does not guarantee"
  },
  {
   "property": "C25",
   "status": "proved",
   "theorems": [
    "C25_aligned",
    "C25_total",
    "C25_write",
    "C25_late_key_refuted",
    "C25_empty_object_refuted",
    "C25_duplicate_key_refuted",
    "C25_unicode_refuted"
   ],
   "note": "the statement as amended: the _refuted theorems show why the hypotheses are needed; the second half is for every text at all"
  },
  {
   "property": "C26",
   "status": "proved",
   "theorems": [
    "C26_lookup",
    "C26_filter",
    "C26_filter_unknown",
    "C26_select",
    "C26_head_tail",
    "C26_sample",
    "C26_string_column",
    "C26_typed_column"
   ],
   "note": "all rectangular datasets; the loaders produce only those (C24, C25)"
  },
  {
   "property": "C44",
   "status": "proved",
   "theorems": [
    "C44_at",
    "C44_new",
    "C44_bad_size",
    "C44_of_rows",
    "C44_of_list",
    "C44_identity",
    "C44_diagonal",
    "C44_row_col",
    "C44_triangles",
    "C44_submatrix",
    "C44_resize",
    "C44_init",
    "C44_swap",
    "C44_equality"
   ],
   "note": "any element type; all sizes"
  },
  {
   "property": "C49",
   "status": "proved",
   "theorems": [
    "C49_get",
    "C49_set",
    "C49_new",
    "C49_of_list",
    "C49_arithmetic",
    "C49_transpose",
    "C49_solve",
    "C49_solve_in_place",
    "C49_dominant",
    "C49_unchecked_refuted"
   ],
   "note": "exact arithmetic in any field with a magnitude; C49_dominant over the reals; the _refuted theorem shows the unchecked inputs"
  },
  {
   "property": "C50",
   "status": "proved",
   "theorems": [
    "C50_locate_window",
    "C50_locate",
    "C50_bracket_unique",
    "C50_new",
    "C50_linear",
    "C50_linear_between",
    "C50_descending_refuted",
    "C50_short_y_refuted",
    "C50_error"
   ],
   "note": "Locating for every comparison function (laws only where stated); linear interpolation over exact reals. Descending tables and short y vectors refuted."
  },
  {
   "property": "C51",
   "status": "proved",
   "theorems": [
    "C51_window",
    "C51_reproduces",
    "C51_nodes",
    "C51_error",
    "C51_error_bound"
   ],
   "note": "Every field with a decidable equality test; C51_nodes over the reals. The error estimate is not modelled."
  },
  {
   "property": "C52",
   "status": "proved",
   "theorems": [
    "C52_spline",
    "C52_integrate",
    "C52_descending_refuted"
   ],
   "note": "Exact reals."
  },
  {
   "property": "C53",
   "status": "proved",
   "theorems": [
    "C53_blend",
    "C53_interpolants",
    "C53_reproduces",
    "C53_full_degree",
    "C53_continuous",
    "C53_bad_degree",
    "C53_short_y_refuted",
    "C53_degree1_linear_refuted",
    "C53_degree0_constant_refuted"
   ],
   "note": "Exact reals. The two documented special cases d = 0 and d = 1 are refuted."
  },
  {
   "property": "C54",
   "status": "proved",
   "theorems": [
    "C54_forward",
    "C54_inverse",
    "C54_round_trip",
    "C54_real",
    "C54_bin",
    "C54_empty",
    "C54_parseval"
   ],
   "note": "Exact reals with the standard library's cos, sin and pi."
  },
  {
   "property": "C55",
   "status": "proved",
   "theorems": [
    "C55_fft_is_dft",
    "C55_round_trip",
    "C55_bad_size",
    "C55_is_power_of_two",
    "C55_next_power_of_two",
    "C55_next_power_overflow_refuted",
    "C55_log2",
    "C55_zero_pad"
   ],
   "note": "Exact reals; the size helpers over all ints. The overflow of NextPowerOfTwo above 2^30 is refuted."
  },
  {
   "property": "C56",
   "status": "proved",
   "theorems": [
    "C56_forward",
    "C56_inverse",
    "C56_round_trip",
    "C56_round_trip_spectrum",
    "C56_bad_size",
    "C56_bad_spectrum",
    "C56_packed_forward",
    "C56_packed_round_trip"
   ],
   "note": "Exact reals."
  },
  {
   "property": "C57",
   "status": "proved",
   "theorems": [
    "C57_forward",
    "C57_inverse",
    "C57_dct_round_trip",
    "C57_dst",
    "C57_errors"
   ],
   "note": "Exact reals."
  },
  {
   "property": "C58",
   "status": "proved",
   "theorems": [
    "C58_mean",
    "C58_mean_bounds",
    "C58_variance",
    "C58_variance_affine",
    "C58_moments",
    "C58_moments_constant",
    "C58_empty",
    "C58_variance_single_refuted",
    "C58_weighted_mean",
    "C58_weighted_mean_equal",
    "C58_weighted_variance",
    "C58_weighted_errors",
    "C58_geometric_harmonic",
    "C58_nonpositive"
   ],
   "note": "Exact reals. That a single value is refused by Variance is refuted: it divides by zero."
  },
  {
   "property": "C59",
   "status": "proved",
   "theorems": [
    "C59_median",
    "C59_median_halves",
    "C59_percentile",
    "C59_percentile_monotone",
    "C59_quartiles",
    "C59_errors",
    "C59_minmax",
    "C59_mode",
    "C59_trimmed_mean",
    "C59_mad"
   ],
   "note": "Exact reals."
  },
  {
   "property": "C60",
   "status": "proved",
   "theorems": [
    "C60_covariance",
    "C60_covariance_linear",
    "C60_pearson",
    "C60_pearson_extreme",
    "C60_pearson_affine",
    "C60_errors",
    "C60_pearson_test",
    "C60_covariance_matrix",
    "C60_correlation_matrix",
    "C60_matrix_errors"
   ],
   "note": "Exact reals."
  },
  {
   "property": "C61",
   "status": "proved",
   "theorems": [
    "C61_ranks",
    "C61_rank_order",
    "C61_spearman",
    "C61_spearman_monotone",
    "C61_spearman_no_ties",
    "C61_kendall",
    "C61_kendall_extreme",
    "C61_errors",
    "C61_close_values_refuted"
   ],
   "note": "Exact reals; the sort of the indices is any order that sorts the data."
  },
  {
   "property": "C62",
   "status": "proved",
   "theorems": [
    "C62_bracket",
    "C62_minimum_inside",
    "C62_equal_bounds_refuted",
    "C62_strict_refuted"
   ],
   "note": "Exact reals; non-finite function values are outside the model."
  },
  {
   "property": "C63",
   "status": "proved",
   "theorems": [
    "C63_golden",
    "C63_golden_accuracy",
    "C63_golden_terminates",
    "C63_golden_zero_refuted",
    "C63_golden_ab",
    "C63_golden_maximize",
    "C63_golden_errors"
   ],
   "note": "Exact reals; the unbounded loop has explicit fuel."
  },
  {
   "property": "C64",
   "status": "proved",
   "theorems": [
    "C64_brent",
    "C64_brent_accuracy",
    "C64_brent_converges",
    "C64_brent_errors",
    "C64_brent_ab",
    "C64_brent_maximize",
    "C64_deriv",
    "C64_deriv_accuracy",
    "C64_deriv_outside_refuted"
   ],
   "note": "Exact reals."
  },
  {
   "property": "C65",
   "status": "proved",
   "theorems": [
    "C65_ring",
    "C65_norm",
    "C65_inverse",
    "C65_normalized",
    "C65_small_refuted"
   ],
   "note": "Exact reals."
  },
  {
   "property": "C66",
   "status": "proved",
   "theorems": [
    "C66_conjugation",
    "C66_rotation",
    "C66_compose",
    "C66_double_cover",
    "C66_matrix",
    "C66_axis_angle",
    "C66_euler"
   ],
   "note": "Exact reals; cos and sin are the standard library's."
  },
  {
   "property": "C67",
   "status": "proved",
   "theorems": [
    "C67_from_matrix",
    "C67_matrix_round_trip",
    "C67_axis_angle",
    "C67_small_angle_refuted",
    "C67_euler",
    "C67_gimbal_refuted",
    "C67_slerp"
   ],
   "note": "Exact reals; acos, asin and the four-quadrant arctangent are real functions."
  },
  {
   "property": "C68",
   "status": "proved",
   "theorems": [
    "C68_unit",
    "C68_perpendicular",
    "C68_angle",
    "C68_parallel",
    "C68_antiparallel_refuted"
   ],
   "note": "Exact reals."
  },
  {
   "property": "C69",
   "status": "proved",
   "theorems": [
    "C69_loop",
    "C69_accuracy",
    "C69_affine",
    "C69_reversed",
    "C69_converged_means_close_refuted",
    "C69_unconverged_estimate_refuted",
    "C69_no_steps_refuted"
   ],
   "note": "Exact reals; the integral is F b - F a for a primitive F."
  },
  {
   "property": "C70",
   "status": "proved",
   "theorems": [
    "C70_loop",
    "C70_accuracy",
    "C70_cubic",
    "C70_single_step_refuted"
   ],
   "note": "Exact reals."
  },
  {
   "property": "C71",
   "status": "proved",
   "theorems": [
    "C71_loop",
    "C71_determined",
    "C71_exact",
    "C71_few_steps_refuted"
   ],
   "note": "Exact reals; at most 51 steps, below which the guard on tiny denominators never acts."
  },
  {
   "property": "C72",
   "status": "proved",
   "theorems": [
    "C72_kronrod",
    "C72_gauss10",
    "C72_gauss10_degree",
    "C72_methods",
    "C72_linear",
    "C72_monotone",
    "C72_odd"
   ],
   "note": "Exact reals; the decimal tables of the source digit by digit."
  },
  {
   "property": "C73",
   "status": "proved",
   "theorems": [
    "C73_partition",
    "C73_tolerance",
    "C73_sound"
   ],
   "note": "Exact reals; the depth is a natural number."
  },
  {
   "property": "C74",
   "status": "proved",
   "theorems": [
    "C74_new",
    "C74_reserve",
    "C74_final",
    "C74_fill",
    "C74_set",
    "C74_errors",
    "C74_get",
    "C74_sequence",
    "C74_fill_refuted",
    "C74_values_refuted"
   ],
   "note": "Any arithmetic."
  },
  {
   "property": "C75",
   "status": "proved",
   "theorems": [
    "C75_integrate",
    "C75_end",
    "C75_errors",
    "C75_calculators",
    "C75_steps_refuted"
   ],
   "note": "Exact reals; the right-hand side is a total function."
  },
  {
   "property": "C76",
   "status": "proved",
   "theorems": [
    "C76_euler",
    "C76_heun",
    "C76_midpoint",
    "C76_rk4",
    "C76_cash_karp",
    "C76_dormand_prince5",
    "C76_dormand_prince8",
    "C76_euler_order",
    "C76_heun_order",
    "C76_midpoint_order",
    "C76_rk4_order",
    "C76_ck_order",
    "C76_dp5_order",
    "C76_dp8_order",
    "C76_quadrature",
    "C76_linear",
    "C76_explicit",
    "C76_row_sums",
    "C76_dp8_row_sums",
    "C76_fsal"
   ],
   "note": "Exact reals. That the order conditions bound the local error by h^(p+1) for every smooth system is Butcher's theorem and is not reproved; its consequences for quadrature and for linear systems are."
  },
  {
   "property": "C77",
   "status": "proved",
   "theorems": [
    "C77_convergence",
    "C77_methods"
   ],
   "note": "Exact reals; first-order bound C/N for every consistent method."
  },
  {
   "property": "C78",
   "status": "proved",
   "theorems": [
    "C78_verlet",
    "C78_leapfrog",
    "C78_same",
    "C78_reversible",
    "C78_energy",
    "C78_area",
    "C78_euler_cromer_energy",
    "C78_euler_cromer_refuted",
    "C78_odd_refuted"
   ],
   "note": "Exact reals."
  },
  {
   "property": "C79",
   "status": "proved",
   "theorems": [
    "C79_dormand_prince",
    "C79_cash_karp",
    "C79_controllers",
    "C79_interpolant",
    "C79_no_step_yet",
    "C79_stale_derivative_refuted"
   ],
   "note": "Exact reals; std::pow is the real power function."
  },
  {
   "property": "C80",
   "status": "proved",
   "theorems": [
    "C80_initial_step",
    "C80_integrate",
    "C80_all_points",
    "C80_integrate_at",
    "C80_too_few_times",
    "C80_skip_refuted",
    "C80_backward_refuted",
    "C80_short_last_step_refuted",
    "C80_repeated_time_refuted"
   ],
   "note": "Exact reals; for any stepper with the properties of C79; the number of output points must fit the container."
  },
  {
   "property": "C81",
   "status": "proved",
   "theorems": [
    "C81_forward",
    "C81_derivative",
    "C81_direction",
    "C81_gradient",
    "C81_arithmetic",
    "C81_abs_refuted",
    "C81_branch_refuted",
    "C81_atan2_refuted"
   ],
   "note": "Exact reals; programs are a datatype whose constructors are the overloaded operations; the functions of <cmath> are the real functions."
  },
  {
   "property": "C82",
   "status": "proved",
   "theorems": [
    "C82_constructed",
    "C82_factor",
    "C82_orthogonal",
    "C82_solve",
    "C82_least_squares",
    "C82_determinant",
    "C82_inverse",
    "C82_singular",
    "C82_errors",
    "C82_small_entries_refuted",
    "C82_zero_refuted"
   ],
   "note": "Exact reals; the 1 x 1 zero matrix is excluded (and refuted) in the theorems on solutions."
  },
  {
   "property": "C83",
   "status": "proved",
   "theorems": [
    "C83_result",
    "C83_dominant",
    "C83_positive_definite",
    "C83_error_bound",
    "C83_fixed_point",
    "C83_errors",
    "C83_optimal",
    "C83_estimate",
    "C83_jacobi_positive_definite_refuted",
    "C83_iterations_refuted",
    "C83_optimal_1x1_refuted",
    "C83_small_diagonal_refuted"
   ],
   "note": "Exact reals; maxIter below the largest int."
  },
  {
   "property": "C84",
   "status": "proved",
   "theorems": [
    "C84_accuracy",
    "C84_polynomial_exact",
    "C84_leading_error",
    "C84_error_estimate",
    "C84_one_sided_samples",
    "C84_one_sided_accuracy",
    "C84_steps",
    "C84_richardson_bound",
    "C84_richardson_exact",
    "C84_one_sided_order_refuted",
    "C84_default_step_refuted",
    "C84_right_estimate_refuted",
    "C84_higher_estimate_refuted",
    "C84_third_estimate_refuted",
    "C84_richardson_depth_refuted"
   ],
   "note": "Exact reals (no rounding); functions are total; numeric_limits::max() as initial error is modelled as 'no error yet'."
  },
  {
   "property": "C85",
   "status": "proved",
   "theorems": [
    "C85_evaluate",
    "C85_terms",
    "C85_interpolates",
    "C85_arguments",
    "C85_polynomial_exact",
    "C85_from_polynomial",
    "C85_error_bound",
    "C85_truncate",
    "C85_set_terms",
    "C85_derivative",
    "C85_integral",
    "C85_to_polynomial",
    "C85_max_error",
    "C85_points",
    "C85_derivative_truncated_refuted",
    "C85_integral_exact_refuted",
    "C85_integral_constant_refuted",
    "C85_first_coefficient_refuted"
   ],
   "note": "Exact reals with the real cosine; printing left out; sampled function total in MaxError."
  },
  {
   "property": "C86",
   "status": "proved",
   "theorems": [
    "C86_roots",
    "C86_quadratic",
    "C86_quadratic_complex",
    "C86_cubic",
    "C86_cubic_count",
    "C86_quartic",
    "C86_degenerate",
    "C86_double_zero_refuted",
    "C86_small_coefficients_refuted",
    "C86_repeated_root_refuted",
    "C86_small_linear_refuted"
   ],
   "note": "Exact reals; std::sqrt on complex numbers is the principal root, std::cbrt the real cube root; Constants::Eps is a positive parameter (at most 1 for the quartic)."
  },
  {
   "property": "C87",
   "status": "proved",
   "theorems": [
    "C87_minimum",
    "C87_outcome",
    "C87_arguments",
    "C87_exact",
    "C87_statistics",
    "C87_general",
    "C87_general_arguments",
    "C87_polynomial",
    "C87_polynomial_arguments",
    "C87_evaluate",
    "C87_close_points_refuted",
    "C87_far_points_refuted",
    "C87_all_zero_refuted",
    "C87_small_ordinates_refuted",
    "C87_negative_r2_refuted"
   ],
   "note": "Exact reals; the singular value decomposition is a parameter of the general and the polynomial fit, whose optimality is a hypothesis of C87_polynomial only; machine epsilon is a positive parameter; timing and message fields left out."
  },
  {
   "property": "C88",
   "status": "proved",
   "theorems": [
    "C88_outcome",
    "C88_decomposition",
    "C88_residual",
    "C88_status",
    "C88_eigenvalues",
    "C88_converges",
    "C88_two",
    "C88_storage",
    "C88_overloads",
    "C88_exact_refuted",
    "C88_tolerance_refuted",
    "C88_nonsymmetric_refuted"
   ],
   "note": "Exact reals with the real cos, sin, atan and sqrt; the number of sweeps in the convergence theorem is a worst-case bound. The options sort_eigenvalues, compute_eigenvectors and verbose are ignored by the code and by the model."
  },
  {
   "property": "C89",
   "status": "proved",
   "theorems": [
    "C89_spherical",
    "C89_cylindrical",
    "C89_basis",
    "C89_metric",
    "C89_rotations",
    "C89_axes",
    "C89_lorentz",
    "C89_numeric",
    "C89_numeric_metrics",
    "C89_numeric_exact",
    "C89_origin_refuted",
    "C89_dual_refuted",
    "C89_euler_refuted",
    "C89_unit_axes_refuted",
    "C89_tensor_refuted"
   ],
   "note": "Exact reals; three coordinates for the template methods; the result of the matrix inverse in the oblique class is never read and is a parameter. Not modelled: CoordTransf3DCartGeneral, the quaternion class (see C66), tensors of rank 3 to 5, Christoffel symbols."
  },
  {
   "property": "C90",
   "status": "proved",
   "theorems": [
    "C90_integral_unique",
    "C90_legendre",
    "C90_hermite",
    "C90_prob_hermite",
    "C90_laguerre",
    "C90_assoc_laguerre",
    "C90_chebyshev",
    "C90_refuses",
    "C90_recurrence",
    "C90_degree",
    "C90_prob_hermite_monic",
    "C90_wavefunction",
    "C90_gamma",
    "C90_assoc_legendre",
    "C90_assoc_laguerre_integer",
    "C90_spherical",
    "C90_zeros",
    "C90_extrema",
    "C90_second_kind_zeros",
    "C90_legendre_coefficient",
    "C90_chebyshev_recurrence_refuted",
    "C90_phase_refuted",
    "C90_assoc_basis_refuted",
    "C90_chebyshev_coefficient_refuted"
   ],
   "note": "Exact reals; the special polynomials are the implementations of the library itself (used where the standard library has none); std::tgamma is a parameter, assumed right only at alpha + 1 and only for the associated Laguerre basis; ComputeCoefficient on unbounded domains is not modelled."
  },
  {
   "property": "C91",
   "status": "proved",
   "theorems": [
    "C91_uniform",
    "C91_exponential",
    "C91_logistic",
    "C91_logistic_mean",
    "C91_cauchy",
    "C91_weibull",
    "C91_weibull_moments",
    "C91_pareto",
    "C91_normal",
    "C91_lognormal",
    "C91_normal_quantile_defined"
   ],
   "note": "Exact reals with the standard library's exp, ln, tan, atan and Rpower; erf is characterised by its derivative and shown to exist. The variance of Logistic, the accuracy of the normal quantile and the distributions without closed formulas (Student, chi-square, F, gamma, beta, discrete ones) are not modelled or not proved."
  }
 ]
}