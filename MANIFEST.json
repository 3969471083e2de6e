{
 "claims": [
  {
   "property": "C01",
   "status": "proved",
   "theorems": [
    "C01_primal_cells_tile",
    "C01_construction_outcome"
   ],
   "note": ""
  },
  {
   "property": "C02",
   "status": "proved",
   "theorems": [
    "C02_dual_cells_tile",
    "C02_dual_cells_tile_periodic"
   ],
   "note": ""
  },
  {
   "property": "C03",
   "status": "proved",
   "theorems": [
    "C03_points_sorted_union"
   ],
   "note": ""
  },
  {
   "property": "C04",
   "status": "proved",
   "theorems": [
    "C04_stokes_primal"
   ],
   "note": ""
  },
  {
   "property": "C05",
   "status": "proved",
   "theorems": [
    "C05_stokes_dual",
    "C05_stokes_dual_periodic",
    "C05_single_vertex_refuted",
    "C05_single_vertex"
   ],
   "note": ""
  },
  {
   "property": "C06",
   "status": "proved",
   "theorems": [
    "C06_negative_adjoint"
   ],
   "note": ""
  },
  {
   "property": "C07",
   "status": "proved",
   "theorems": [
    "C07_kernel_constants",
    "C07_image_periodic",
    "C07_image_interval",
    "C07_dual_injective"
   ],
   "note": ""
  },
  {
   "property": "C08",
   "status": "proved",
   "theorems": [
    "C08_derivative_matrix"
   ],
   "note": ""
  },
  {
   "property": "C09",
   "status": "proved",
   "theorems": [
    "C09_fft_round_trip",
    "C09_freq",
    "C09_coefficients",
    "C09_fft_linear"
   ],
   "note": ""
  },
  {
   "property": "C10",
   "status": "proved",
   "theorems": [
    "C10_S_evaluates_interpolant"
   ],
   "note": ""
  },
  {
   "property": "C11",
   "status": "proved",
   "theorems": [
    "C11_S_inverse_odd",
    "C11_S_even",
    "C11_S_inverse_even_refuted"
   ],
   "note": ""
  },
  {
   "property": "C12",
   "status": "proved",
   "theorems": [
    "C12_H_inverse",
    "C12_H_well_defined"
   ],
   "note": ""
  },
  {
   "property": "C13",
   "status": "proved",
   "theorems": [
    "C13_H_S_commute",
    "C13_S_Hinv_Sinv"
   ],
   "note": ""
  },
  {
   "property": "C14",
   "status": "proved",
   "theorems": [
    "C14_spectral_exactness"
   ],
   "note": ""
  },
  {
   "property": "C15",
   "status": "proved",
   "theorems": [
    "C15_alpha_cardinal",
    "C15_alpha_dirichlet"
   ],
   "note": ""
  },
  {
   "property": "C16",
   "status": "proved",
   "theorems": [
    "C16_beta_histopolates",
    "C16_beta_continuous"
   ],
   "note": ""
  },
  {
   "property": "C17",
   "status": "proved",
   "theorems": [
    "C17_projection_reconstruction"
   ],
   "note": ""
  },
  {
   "property": "C18",
   "status": "proved",
   "theorems": [
    "C18_hodge_is_P_R",
    "C18_hodge_star_matrix"
   ],
   "note": ""
  },
  {
   "property": "C19",
   "status": "proved",
   "theorems": [
    "C19_hodge_extent",
    "C19_hodge_extent_refuted"
   ],
   "note": ""
  },
  {
   "property": "C20",
   "status": "proved",
   "theorems": [
    "C20_mirror_round_trip",
    "C20_mirror_parity",
    "C20_unmirror_mirror"
   ],
   "note": ""
  },
  {
   "property": "C21",
   "status": "proved",
   "theorems": [
    "C21_unextend_extend",
    "C21__unextend__extend",
    "C21_unextend_0_refuted",
    "C21_E_space_resamples",
    "C21_E_space_round_trip"
   ],
   "note": ""
  },
  {
   "property": "C22",
   "status": "proved",
   "theorems": [
    "C22_regular_hodge_inverse"
   ],
   "note": ""
  },
  {
   "property": "C23",
   "status": "proved",
   "theorems": [
    "C23_regular_cardinal",
    "C23_projection_reconstruction",
    "C23_hodge_is_P_R"
   ],
   "note": ""
  },
  {
   "property": "C24",
   "status": "proved",
   "theorems": [
    "C24_K_integrates_against_sine"
   ],
   "note": ""
  },
  {
   "property": "C25",
   "status": "proved",
   "theorems": [
    "C25_raises_exactly",
    "C25_K_inv_inverts_K"
   ],
   "note": ""
  },
  {
   "property": "C26",
   "status": "proved",
   "theorems": [
    "C26_edge_hodge_inverse",
    "C26_isclose_threshold"
   ],
   "note": ""
  },
  {
   "property": "C27",
   "status": "proved",
   "theorems": [
    "C27_hodge_integrates_polynomial"
   ],
   "note": ""
  },
  {
   "property": "C28",
   "status": "proved",
   "theorems": [
    "C28_dual_edge_hodge_inverse",
    "C28_dual_edge_hodge_value"
   ],
   "note": ""
  },
  {
   "property": "C29",
   "status": "proved",
   "theorems": [
    "C29_chebyshev_cardinal",
    "C29_projection_reconstruction",
    "C29_hodge_evaluates_polynomial"
   ],
   "note": ""
  },
  {
   "property": "C30",
   "status": "proved",
   "theorems": [
    "C30_interpolation"
   ],
   "note": ""
  },
  {
   "property": "C31",
   "status": "proved",
   "theorems": [
    "C31_round_trip",
    "C31_samples_reconstruction"
   ],
   "note": ""
  },
  {
   "property": "C32",
   "status": "proved",
   "theorems": [
    "C32_samples_polynomial",
    "C32_restriction_integrates",
    "C32_round_trip",
    "C32_large_raises"
   ],
   "note": ""
  },
  {
   "property": "C33",
   "status": "proved",
   "theorems": [
    "C33_unaffected",
    "C33_floats",
    "C33_dual_truncates",
    "C33_dual_truncates_cheb",
    "C33_refuted"
   ],
   "note": ""
  },
  {
   "property": "C34",
   "status": "proved",
   "theorems": [
    "C34_leibniz"
   ],
   "note": ""
  },
  {
   "property": "C35",
   "status": "proved",
   "theorems": [
    "C35_commutative",
    "C35_bilinear",
    "C35_one_neutral",
    "C35_exact_polynomial",
    "C35_exact_trigonometric",
    "C35_not_associative"
   ],
   "note": ""
  },
  {
   "property": "C36",
   "status": "proved",
   "theorems": [
    "C36_keys_unary",
    "C36_keys_W",
    "C36_keys_C",
    "C36_length_D",
    "C36_length_H",
    "C36_length_W",
    "C36_length_C"
   ],
   "note": ""
  },
  {
   "property": "C37",
   "status": "proved",
   "theorems": [
    "C37_binary",
    "C37_scalar",
    "C37_broadcast",
    "C37_neg",
    "C37_never_mixes",
    "C37_div_raises"
   ],
   "note": ""
  },
  {
   "property": "C38",
   "status": "proved",
   "theorems": [
    "C38_D",
    "C38_H",
    "C38_W",
    "C38_C",
    "C38_xor",
    "C38_other_grid_raises",
    "C38_1d_D",
    "C38_1d_H",
    "C38_1d_W",
    "C38_1d_C"
   ],
   "note": ""
  },
  {
   "property": "C39",
   "status": "proved",
   "theorems": [
    "C39_interpolation_raises"
   ],
   "note": ""
  },
  {
   "property": "C40",
   "status": "proved",
   "theorems": [
    "C40_meaning",
    "C40_true",
    "C40_ne_negates",
    "C40_reflexive",
    "C40_not_symmetric",
    "C40_not_transitive"
   ],
   "note": ""
  },
  {
   "property": "C41",
   "status": "proved",
   "theorems": [
    "C41_reshape_unshape",
    "C41_unshape_reshape",
    "C41_wrong_size_raises",
    "C41_unravel_idx",
    "C41_arange2_single"
   ],
   "note": ""
  },
  {
   "property": "C42",
   "status": "proved",
   "theorems": [
    "C42_dd"
   ],
   "note": ""
  },
  {
   "property": "C43",
   "status": "proved",
   "theorems": [
    "C43_d_top_refuted"
   ],
   "note": ""
  },
  {
   "property": "C44",
   "status": "proved",
   "theorems": [
    "C44_hodge"
   ],
   "note": ""
  },
  {
   "property": "C45",
   "status": "proved",
   "theorems": [
    "C45_stokes0_primal",
    "C45_stokes1_primal",
    "C45_stokes0_dual",
    "C45_stokes1_dual",
    "C45_numerical_projection"
   ],
   "note": ""
  },
  {
   "property": "C46",
   "status": "proved",
   "theorems": [
    "C46_cells",
    "C46_primal_face_boundary",
    "C46_dual_face_boundary",
    "C46_product_exists"
   ],
   "note": ""
  },
  {
   "property": "C47",
   "status": "proved",
   "theorems": [
    "C47_round_trip",
    "C47_regular_raises"
   ],
   "note": ""
  },
  {
   "property": "C48",
   "status": "proved",
   "theorems": [
    "C48_keys",
    "C48_graded_commutative",
    "C48_bilinear",
    "C48_one_neutral"
   ],
   "note": ""
  },
  {
   "property": "C49",
   "status": "proved",
   "theorems": [
    "C49_keys",
    "C49_bilinear",
    "C49_nilpotent_components"
   ],
   "note": ""
  },
  {
   "property": "C50",
   "status": "proved",
   "theorems": [
    "C50_default_grids_cardinal",
    "C50_basis_cardinal"
   ],
   "note": ""
  },
  {
   "property": "C51",
   "status": "proved",
   "theorems": [
    "C51_d_squared_zero",
    "C51_leibniz"
   ],
   "note": ""
  },
  {
   "property": "C52",
   "status": "proved",
   "theorems": [
    "C52_defined_iff_degree",
    "C52_graded_commutative",
    "C52_associative",
    "C52_unit",
    "C52_bilinear",
    "C52_odd_square_zero",
    "C52_wedge_is_alternating_product"
   ],
   "note": ""
  },
  {
   "property": "C53",
   "status": "proved",
   "theorems": [
    "C53_hodge_involution",
    "C53_dot",
    "C53_dot_degrees",
    "C53_wedge_hodge"
   ],
   "note": ""
  },
  {
   "property": "C54",
   "status": "proved",
   "theorems": [
    "C54_contraction_twice",
    "C54_contraction_inserts",
    "C54_antiderivation",
    "C54_lie",
    "C54_lie_commutes_with_d"
   ],
   "note": ""
  },
  {
   "property": "C55",
   "status": "proved",
   "theorems": [
    "C55_laplacian",
    "C55_vector_calculus"
   ],
   "note": ""
  },
  {
   "property": "C56",
   "status": "proved",
   "theorems": [
    "C56_scalar_multiplication_raises",
    "C56_scaling_law_refuted"
   ],
   "note": ""
  },
  {
   "property": "C57",
   "status": "proved",
   "theorems": [
    "C57_diff_is_derivative",
    "C57_D_components"
   ],
   "note": ""
  },
  {
   "property": "C58",
   "status": "proved",
   "theorems": [
    "C58_nCr",
    "C58_form_guard"
   ],
   "note": ""
  },
  {
   "property": "C59",
   "status": "proved",
   "theorems": [
    "C59_point_segment_measure",
    "C59_malformed",
    "C59_triangle_raises",
    "C59_triangle_area_refuted"
   ],
   "note": ""
  },
  {
   "property": "C60",
   "status": "proved",
   "theorems": [
    "C60_represents_real",
    "C60_represents",
    "C60_matrix_of_matrix",
    "C60_represents_op",
    "C60_composition",
    "C60_empty_raises"
   ],
   "note": ""
  },
  {
   "property": "C61",
   "status": "proved",
   "theorems": [
    "C61_interweave",
    "C61_interweave_raises",
    "C61_interweave_rows",
    "C61_interweave_rows_raises",
    "C61_interweave_columns",
    "C61_pad",
    "C61_pad2",
    "C61_apply_map",
    "C61_apply_map_negative",
    "C61_apply_map_raises"
   ],
   "note": ""
  },
  {
   "property": "C62",
   "status": "proved",
   "theorems": [
    "C62_operators",
    "C62_composition",
    "C62_by_degree",
    "C62_agree"
   ],
   "note": ""
  },
  {
   "property": "C63",
   "status": "proved",
   "theorems": [
    "C63_schur_solves",
    "C63_schur_singular",
    "C63_schur_shapes",
    "C63_lambda_agrees",
    "C63_lambda_empty_refuted"
   ],
   "note": ""
  },
  {
   "property": "C64",
   "status": "proved",
   "theorems": [
    "C64_memoize_transparent",
    "C64_exceptions_not_cached",
    "C64_commit_read_back",
    "C64_computed_at_most_once"
   ],
   "note": ""
  },
  {
   "property": "C65",
   "status": "proved",
   "theorems": [
    "C65_crash_before_exit",
    "C65_torn_write_breaks_every_import",
    "C65_robustness_refuted"
   ],
   "note": ""
  },
  {
   "property": "C66",
   "status": "proved",
   "theorems": [
    "C66_get_after_set",
    "C66_set_other_names",
    "C66_delete",
    "C66_delete_outcome",
    "C66_tree",
    "C66_set_outcome",
    "C66_sequence_refines_map"
   ],
   "note": ""
  },
  {
   "property": "C67",
   "status": "proved",
   "theorems": [
    "C67_simpson_exact",
    "C67_boole_exact",
    "C67_order",
    "C67_linear_antisymmetric",
    "C67_boole1",
    "C67_boole2"
   ],
   "note": ""
  },
  {
   "property": "C68",
   "status": "proved",
   "theorems": [
    "C68_exact_form",
    "C68_reverse",
    "C68_polygon_area",
    "C68_rotate",
    "C68_orientation",
    "C68_stokes"
   ],
   "note": ""
  },
  {
   "property": "C69",
   "status": "proved",
   "theorems": [
    "C69_cardinal",
    "C69_reproduce",
    "C69_partition_of_unity",
    "C69_one_node_raises"
   ],
   "note": ""
  },
  {
   "property": "C70",
   "status": "proved",
   "theorems": [
    "C70_subdivide",
    "C70_subdivide_short",
    "C70_subdivide_rejects",
    "C70_split_args",
    "C70_coarse_exact",
    "C70_spectral_exact",
    "C70_split_spectral_exact",
    "C70_chebyshev_exact",
    "C70_chebyshev_dual_exact"
   ],
   "note": ""
  },
  {
   "property": "C71",
   "status": "proved",
   "theorems": [
    "C71_hodge_exact"
   ],
   "note": ""
  },
  {
   "property": "C72",
   "status": "proved",
   "theorems": [
    "C72_reconstruction_exact"
   ],
   "note": ""
  },
  {
   "property": "C73",
   "status": "proved",
   "theorems": [
    "C73_refinement_exact",
    "C73_wedge_exact",
    "C73_contraction_exact"
   ],
   "note": ""
  },
  {
   "property": "C74",
   "status": "proved",
   "theorems": [
    "C74_derivative_primal",
    "C74_derivative_dual_periodic",
    "C74_derivative_dual_interval",
    "C74_laplacian_periodic",
    "C74_laplacian_chebyshev"
   ],
   "note": ""
  },
  {
   "property": "C75",
   "status": "proved",
   "theorems": [
    "C75_average_1d",
    "C75_average_monomial",
    "C75_segment",
    "C75_triangle",
    "C75_average_triangle",
    "C75_average_affine",
    "C75_triangle_orientation",
    "C75_stokes_triangle"
   ],
   "note": ""
  },
  {
   "property": "C76",
   "status": "proved",
   "theorems": [
    "C76_discretise",
    "C76_unevaluated",
    "C76_dimension",
    "C76_stray_symbol",
    "C76_constant",
    "C76_constant_refuted",
    "C76_discretise_plane"
   ],
   "note": ""
  },
  {
   "property": "C77",
   "status": "proved",
   "theorems": [
    "C77_derivative_primal",
    "C77_derivative_dual_periodic",
    "C77_derivative_dual_interval",
    "C77_hodge",
    "C77_wedge",
    "C77_contraction",
    "C77_plane_0_primal",
    "C77_plane_1_primal",
    "C77_plane_0_dual",
    "C77_plane_1_dual",
    "C77_plane_other_symbol",
    "C77_plane_swapped_refuted",
    "C77_plane_hodge",
    "C77_plane_wedge",
    "C77_plane_contraction"
   ],
   "note": ""
  },
  {
   "property": "C78",
   "status": "proved",
   "theorems": [
    "C78_form_form",
    "C78_form_scalar",
    "C78_negation",
    "C78_mismatch",
    "C78_wedge_mismatch",
    "C78_wedge_with_zero",
    "C78_contraction_mismatch",
    "C78_shorthands",
    "C78_zero"
   ],
   "note": ""
  },
  {
   "property": "C79",
   "status": "proved",
   "theorems": [
    "C79_sparse_matrix",
    "C79_sparse_matrix_raises",
    "C79_sparse_product",
    "C79_sparse_diag",
    "C79_by_index",
    "C79_derivative_matrix",
    "C79_equidistant_raises",
    "C79_equidistant_true",
    "C79_equidistant_sound",
    "C79_equidistant_total"
   ],
   "note": ""
  },
  {
   "property": "C80",
   "status": "proved",
   "theorems": [
    "C80_hodge_exact",
    "C80_refinement_exact",
    "C80_wedge_exact",
    "C80_contraction_exact",
    "C80_wedge_fine",
    "C80_contraction_fine"
   ],
   "note": ""
  },
  {
   "property": "C81",
   "status": "proved",
   "theorems": [
    "C81_laplacian"
   ],
   "note": ""
  },
  {
   "property": "C82",
   "status": "proved",
   "theorems": [
    "C82_bijection",
    "C82_hodge",
    "C82_hodge_same_function",
    "C82_wedge",
    "C82_contraction",
    "C82_derivative",
    "C82_derivative_dual",
    "C82_derivative_regular_refuted",
    "C82_value_defined"
   ],
   "note": ""
  },
  {
   "property": "C83",
   "status": "proved",
   "theorems": [
    "C83_reconstruction_exact",
    "C83_bijection",
    "C83_hodge",
    "C83_wedge",
    "C83_contraction",
    "C83_derivative"
   ],
   "note": ""
  },
  {
   "property": "C84",
   "status": "proved",
   "theorems": [
    "C84_shift",
    "C84_shift_samples",
    "C84_shift_group",
    "C84_integrate",
    "C84_integration_inverse",
    "C84_integration_singular",
    "C84_sine",
    "C84_sine_inverse",
    "C84_sine_raises"
   ],
   "note": ""
  },
  {
   "property": "C85",
   "status": "proved",
   "theorems": [
    "C85_gamma_integral",
    "C85_refine",
    "C85_refine_twice",
    "C85_half_edge_real",
    "C85_half_edge_imaginary",
    "C85_half_edge_real_refuted",
    "C85_alpha0_alt_grid",
    "C85_alpha0_alt_antiperiodic",
    "C85_alpha0_alt_refuted"
   ],
   "note": ""
  },
  {
   "property": "C86",
   "status": "proved",
   "theorems": [
    "C86_fold1",
    "C86_fold0",
    "C86_fold_mirror",
    "C86_unfold0",
    "C86_fold_unfold",
    "C86_unfold_fold",
    "C86_matA",
    "C86_matA_odd_refuted",
    "C86_matC",
    "C86_pick",
    "C86_reverse"
   ],
   "note": ""
  },
  {
   "property": "C87",
   "status": "proved",
   "theorems": [
    "C87_values",
    "C87_table",
    "C87_table_refuted",
    "C87_associative",
    "C87_associative_refuted",
    "C87_w01_unit",
    "C87_w01_not_associative",
    "C87_hodge_toeplitz",
    "C87_switch",
    "C87_switch_chebyshev",
    "C87_switch_refuted",
    "C87_differentiation_toeplitz_raises"
   ],
   "note": ""
  },
  {
   "property": "C88",
   "status": "proved",
   "theorems": [
    "C88_projection_0",
    "C88_projection_1",
    "C88_projection_2",
    "C88_boundary_0",
    "C88_boundary_1",
    "C88_boundary_1_periodic_refuted",
    "C88_stokes_0",
    "C88_stokes_1"
   ],
   "note": ""
  },
  {
   "property": "C89",
   "status": "proved",
   "theorems": [
    "C89_defined",
    "C89_kernel",
    "C89_range",
    "C89_unique_up_to_constant",
    "C89_dirichlet",
    "C89_kernel_dual_periodic",
    "C89_range_dual_periodic",
    "C89_tuples",
    "C89_poisson_dirichlet",
    "C89_poisson_neumann",
    "C89_poisson_periodic",
    "C89_exists"
   ],
   "note": ""
  },
  {
   "property": "C90",
   "status": "proved",
   "theorems": [
    "C90_closed_0",
    "C90_potential_unique",
    "C90_periods",
    "C90_exact_1",
    "C90_any_periods",
    "C90_exact_2",
    "C90_rectangle",
    "C90_torus"
   ],
   "note": ""
  },
  {
   "property": "C91",
   "status": "proved",
   "theorems": [
    "C91_points",
    "C91_derivative",
    "C91_hodge_star",
    "C91_reconstruction",
    "C91_project_reconstruct",
    "C91_stokes_0",
    "C91_stokes_1",
    "C91_rand",
    "C91_reconstruction_1d",
    "C91_square",
    "C91_square_extent"
   ],
   "note": ""
  },
  {
   "property": "C92",
   "status": "proved",
   "theorems": [
    "C92_inner_product",
    "C92_chebyshev_refuted",
    "C92_inner_product_2d"
   ],
   "note": ""
  },
  {
   "property": "C93",
   "status": "proved",
   "theorems": [
    "C93_green",
    "C93_negative",
    "C93_green_2d",
    "C93_negative_2d",
    "C93_poisson_2d"
   ],
   "note": ""
  },
  {
   "property": "C94",
   "status": "proved",
   "theorems": [
    "C94_orthogonal",
    "C94_decomposition",
    "C94_unique",
    "C94_harmonic"
   ],
   "note": ""
  },
  {
   "property": "C95",
   "status": "proved",
   "theorems": [
    "C95_cartesian",
    "C95_quadrature",
    "C95_quadrature_additive",
    "C95_omega",
    "C95_bunch",
    "C95_bunch_names",
    "C95_valid_names",
    "C95_nametuple",
    "C95_nametuple_missing",
    "C95_make_namedtuple",
    "C95_set_fields",
    "C95_dispatch",
    "C95_assign"
   ],
   "note": ""
  },
  {
   "property": "C96",
   "status": "proved",
   "theorems": [
    "C96_derivative",
    "C96_laplacian0",
    "C96_laplacian2",
    "C96_laplacian1",
    "C96_periodic"
   ],
   "note": ""
  },
  {
   "property": "C97",
   "status": "proved",
   "theorems": [
    "C97_same_stars",
    "C97_inverse",
    "C97_weighted_integrals",
    "C97_I_sin",
    "C97_H_sin_singular",
    "C97_H_exp_singular_refuted",
    "C97_H_exp_one",
    "C97_errors"
   ],
   "note": ""
  },
  {
   "property": "C98",
   "status": "proved",
   "theorems": [
    "C98_undisturbed_commit",
    "C98_never_a_wrong_answer",
    "C98_no_failed_import",
    "C98_import_during_write_fails",
    "C98_last_commit_wins",
    "C98_keeps_what_it_read",
    "C98_running_process_repairs",
    "C98_lost_update_refuted",
    "C98_overlapping_writes_refuted"
   ],
   "note": ""
  },
  {
   "property": "C99",
   "status": "proved",
   "theorems": [
    "C99_plot_shows_the_flow",
    "C99_samples",
    "C99_five_samples",
    "C99_periodic",
    "C99_periodic_refuted",
    "C99_documented_pressure_refuted"
   ],
   "note": ""
  },
  {
   "property": "C100",
   "status": "proved",
   "theorems": [
    "C100_diagonal",
    "C100_eigenspaces",
    "C100_spectrum"
   ],
   "note": ""
  },
  {
   "property": "C101",
   "status": "proved",
   "theorems": [
    "C101_axes",
    "C101_spectrum",
    "C101_torus"
   ],
   "note": ""
  },
  {
   "property": "C102",
   "status": "proved",
   "theorems": [
    "C102_hodge",
    "C102_hodge_edges",
    "C102_reconstruction",
    "C102_reconstruction_edges",
    "C102_laplacian",
    "C102_bound_vanishes"
   ],
   "note": ""
  },
  {
   "property": "C103",
   "status": "proved",
   "theorems": [
    "C103_hodge",
    "C103_reconstruction",
    "C103_bound_vanishes"
   ],
   "note": ""
  },
  {
   "property": "C104",
   "status": "proved",
   "theorems": [
    "C104_wedge",
    "C104_contraction",
    "C104_bound_vanishes"
   ],
   "note": ""
  },
  {
   "property": "C105",
   "status": "proved",
   "theorems": [
    "C105_total",
    "C105_sharp",
    "C105_quadrature",
    "C105_wedge_total"
   ],
   "note": ""
  }
 ]
}