{
 "claims": [
  {
   "property": "C01",
   "status": "proved",
   "theorems": [
    "C01_storage_faithful",
    "C01_illegal_write_detected",
    "C01_dense_range_check_refuted"
   ],
   "note": "all six storage classes; C01_dense_range_check_refuted: Matrix_Dense::set_element does not check bounds (outside the property's legal writes)"
  },
  {
   "property": "C02",
   "status": "proved",
   "theorems": [
    "C02_factories_interchangeable"
   ],
   "note": "any two factory requests, including periodic and block ones"
  },
  {
   "property": "C03",
   "status": "partial",
   "theorems": [
    "C03_block_solve",
    "C03_corner_solve",
    "C03_schur_regular",
    "C03_corner_solve_multiple_refuted",
    "C03_base_solve_multiple"
   ],
   "note": "proved for every block matrix whose first block is not larger than the banded region (no_overlap); refuted otherwise (C06) and for solve_multiple_inplace; LAPACK is an oracle"
  },
  {
   "property": "C04",
   "status": "partial",
   "theorems": [
    "C04_transposed_solve",
    "C04_corner_solve_transpose"
   ],
   "note": "same restriction as C03"
  },
  {
   "property": "C05",
   "status": "proved",
   "theorems": [
    "C05_periodic_store",
    "C05_periodic_solve"
   ],
   "note": "LAPACK is an oracle"
  },
  {
   "property": "C06",
   "status": "partial",
   "theorems": [
    "C06_centre_solve",
    "C06_large_first_block_refuted",
    "C06_centre_solve_multiple_refuted",
    "C06_block1_position_refuted"
   ],
   "note": "proved when the first block is not larger than the banded region; refuted otherwise (overlapping memcpy), and for several right-hand sides"
  },
  {
   "property": "C07",
   "status": "proved",
   "theorems": [
    "C07_tridiagonal_solve",
    "C07_strictly_dominant_no_zero_pivot",
    "C07_weakly_dominant_no_zero_pivot",
    "C07_positive_definite_no_zero_pivot",
    "C07_stability_check_meaning",
    "C07_stability_check_sound_refuted",
    "C07_stability_check_symmetry_refuted"
   ],
   "note": "the clause of setup_solver's stability check is separately refuted (C07_stability_check_*_refuted): it accepts singular pivots"
  },
  {
   "property": "C08",
   "status": "partial",
   "theorems": [
    "C08_coo_to_csr_partial",
    "C08_unsorted_triplets_refuted",
    "C08_csr_norm"
   ],
   "note": "proved for the first matrix always and for all matrices when the triplets are sorted by row; refuted otherwise (C08_unsorted_triplets_refuted)"
  },
  {
   "property": "C09",
   "status": "proved",
   "theorems": [
    "C09_order_of_accuracy",
    "C09_linear_systems",
    "C09_zero_step"
   ],
   "note": "exact reals; order proved for arbitrary smooth systems of n equations"
  },
  {
   "property": "C10",
   "status": "proved",
   "theorems": [
    "C10_componentwise",
    "C10_linear_derivative_linear_update"
   ],
   "note": ""
  },
  {
   "property": "C11",
   "status": "proved",
   "theorems": [
    "C11_loop_bounded_and_exit",
    "C11_fixed_point",
    "C11_early_exit_residual",
    "C11_contraction",
    "C11_implicit_solution_unique",
    "C11_norm_is_maximum"
   ],
   "note": ""
  },
  {
   "property": "C12",
   "status": "proved",
   "theorems": [
    "C12_layout_partition",
    "C12_indivisible_throws"
   ],
   "note": ""
  },
  {
   "property": "C13",
   "status": "partial",
   "theorems": [
    "C13_transpose_moves_every_element",
    "C13_round_trip",
    "C13_indivisible_throws",
    "C13_distributed_order_refuted"
   ],
   "note": "proved (both directions, round trip) for layouts whose distributed dimensions are listed in the order of the data; refuted otherwise (C13_distributed_order_refuted, the repository's own 4-D test layout with 4 ranks); MPI_Alltoall by its standard semantics"
  },
  {
   "property": "C14",
   "status": "proved",
   "theorems": [
    "C14_trapezoid",
    "C14_trapezoid_periodic"
   ],
   "note": ""
  },
  {
   "property": "C15",
   "status": "partial",
   "theorems": [
    "C15_simpson",
    "C15_simpson_periodic_partial",
    "C15_wrong_parity_throws",
    "C15_simpson_trapezoid_partial",
    "C15_simpson_trapezoid_odd",
    "C15_two_periodic_points_refuted",
    "C15_one_cell_mixed_refuted"
   ],
   "note": "proved for every admissible number of points except two points (periodic, or mixed rule), where the code has undefined behaviour (refuted theorems)"
  },
  {
   "property": "C16",
   "status": "proved",
   "theorems": [
    "C16_operator_is_sum",
    "C16_linear",
    "C16_tensor_product",
    "C16_batched",
    "C16_work_items_bijective",
    "C16_volume"
   ],
   "note": "reductions and teams modelled sequentially; exact reals so the order of summation is irrelevant"
  },
  {
   "property": "C17",
   "status": "proved",
   "theorems": [
    "C17_exact_on_quadratics",
    "C17_exact_periodic",
    "C17_boundary_values"
   ],
   "note": "non-periodic, periodic and boundary-value operators; exact reals"
  },
  {
   "property": "C18",
   "status": "proved",
   "theorems": [
    "C18_lands_in_domain",
    "C18_identity_inside",
    "C18_equivalent_coordinates",
    "C18_bspline_domain"
   ],
   "note": "exact reals; loops bounded by 10 iterations"
  },
  {
   "property": "C19",
   "status": "proved",
   "theorems": [
    "C19_numbering_is_a_bijection",
    "C19_element_access",
    "C19_row_major"
   ],
   "note": "tag types modelled as values, type sequences as lists"
  },
  {
   "property": "C20",
   "status": "proved",
   "theorems": [
    "C20_scalar_product",
    "C20_tensor_product",
    "C20_bad_expressions_rejected"
   ],
   "note": "exact arithmetic; DDC type_seq_rank modelled as first occurrence"
  },
  {
   "property": "C21",
   "status": "proved",
   "theorems": [
    "C21_levi_civita_components",
    "C21_transposition",
    "C21_determinant",
    "C21_parity_total",
    "C21_coefficients",
    "C21_identity"
   ],
   "note": "determinant identity by Laplace expansion for every dimension"
  },
  {
   "property": "C22",
   "status": "proved",
   "theorems": [
    "C22_basis_values",
    "C22_partition_of_unity",
    "C22_kronecker",
    "C22_polynomials",
    "C22_knots",
    "C22_smallest_periodic_refuted",
    "C22_sub_range_refuted"
   ],
   "note": "Exact reproduction up to the node tolerance of the code, which is kept in the statement. Findings: with the smallest accepted number of points the builder of a periodic basis reads out of bounds; the non-uniform basis ignores the sub-range it is given."
  },
  {
   "property": "C23",
   "status": "proved",
   "theorems": [
    "C23_stencil",
    "C23_closest",
    "C23_evaluation"
   ],
   "note": ""
  },
  {
   "property": "C24",
   "status": "proved",
   "theorems": [
    "C24_jacobian",
    "C24_inverse_jacobian",
    "C24_right_inverse",
    "C24_left_inverse",
    "C24_cartesian_to_circular_jacobian",
    "C24_range"
   ],
   "note": "Sign of zero in atan2 not modelled."
  },
  {
   "property": "C25",
   "status": "proved",
   "theorems": [
    "C25_disc_admissible",
    "C25_jacobian",
    "C25_inverse_jacobian",
    "C25_left_inverse",
    "C25_right_inverse",
    "C25_o_point"
   ],
   "note": ""
  },
  {
   "property": "C26",
   "status": "proved",
   "theorems": [
    "C26_cylindrical_jacobian",
    "C26_cylindrical_inverse_jacobian",
    "C26_right_inverse",
    "C26_left_inverse",
    "C26_cartesian_to_cylindrical_jacobian",
    "C26_cartesian_to_cylindrical_component_refuted",
    "C26_toroidal_jacobian",
    "C26_toroidal_inverse",
    "C26_toroidal_inverse_components"
   ],
   "note": "Finding: the component accessor of CartesianToCylindrical accepts no tag (refuted theorem)."
  },
  {
   "property": "C27",
   "status": "proved",
   "theorems": [
    "C27_sum_one",
    "C27_right_inverse",
    "C27_left_inverse",
    "C27_corners"
   ],
   "note": ""
  },
  {
   "property": "C28",
   "status": "proved",
   "theorems": [
    "C28_helper_matrix",
    "C28_helper_forwards",
    "C28_helper_component",
    "C28_metric",
    "C28_metric_inverse",
    "C28_same_vector",
    "C28_components_unique",
    "C28_round_trip",
    "C28_path_independent",
    "C28_pairing",
    "C28_curvilinear"
   ],
   "note": ""
  },
  {
   "property": "C29",
   "status": "proved",
   "theorems": [
    "C29_convex",
    "C29_fixed",
    "C29_compose",
    "C29_untouched",
    "C29_ode",
    "C29_density",
    "C29_positive",
    "C29_source_sink"
   ],
   "note": "exact reals"
  },
  {
   "property": "C30",
   "status": "partial",
   "theorems": [
    "C30_amplitudes",
    "C30_neutral_partial",
    "C30_first_order_partial",
    "C30_defect",
    "C30_nonneutral_refuted",
    "C30_multicharge_refuted"
   ],
   "note": "exact for locally neutral plasmas of singly charged ions and at first order; refuted otherwise: C30_nonneutral_refuted (the amplitudes of the second stage are those of the half-step state, the difference that of the initial one), C30_multicharge_refuted (the ion charge is ignored); C30_defect gives the exact drift"
  },
  {
   "property": "C31",
   "status": "partial",
   "theorems": [
    "C31_errors",
    "C31_range",
    "C31_complementary_partial",
    "C31_unit_integral_partial",
    "C31_shape",
    "C31_extent_zero_refuted",
    "C31_extent_half_refuted"
   ],
   "note": "all clauses proved except at the accepted end values of the extent: C31_extent_zero_refuted (both masks vanish), C31_extent_half_refuted (normalisation by zero)"
  },
  {
   "property": "C32",
   "status": "proved",
   "theorems": [
    "C32_exchange",
    "C32_relaxation",
    "C32_frequencies",
    "C32_moments",
    "C32_conservation",
    "C32_equilibrium",
    "C32_constructor_checks"
   ],
   "note": "exchange terms for all states; conservation by the discretised term for velocity grids that integrate the Maxwellian exactly, exact defect otherwise (C32_moments)"
  },
  {
   "property": "C33",
   "status": "partial",
   "theorems": [
    "C33_charge_density_partial",
    "C33_adiabatic_refuted"
   ],
   "note": "proved without an adiabatic species; refuted with one (C33_adiabatic_refuted: the code compares the last kinetic species with itself)"
  },
  {
   "property": "C34",
   "status": "partial",
   "theorems": [
    "C34_init_all_species",
    "C34_errors",
    "C34_lookups_partial",
    "C34_mass_of_adiabatic_electron_refuted",
    "C34_restart",
    "C34_restart_adiabatic_refuted"
   ],
   "note": "numbering, charges, errors and kinetic look-ups proved; refuted: look-up of the mass of an adiabatic electron, restart with an adiabatic species"
  },
  {
   "property": "C35",
   "status": "partial",
   "theorems": [
    "C35_coordinate_map",
    "C35_ends",
    "C35_coordinate_round_trip",
    "C35_index_wrap",
    "C35_index_far",
    "C35_uniform_partial",
    "C35_operator_partial",
    "C35_uniform_round_trip_partial",
    "C35_uniform_binary_ratio",
    "C35_uniform_float_refuted",
    "C35_nonuniform",
    "C35_nonuniform_exact",
    "C35_single_point_refuted"
   ],
   "note": "coordinates: proved. Index search, non uniform grids: proved for edges of the same periodicity. Uniform grids: proved with the index rescaling in exact arithmetic, and in IEEE binary64 when the ratio of the cell counts is a binary fraction; refuted in binary64 in general (32 against 123 cells). Refuted: one-point targets."
  },
  {
   "property": "C36",
   "status": "partial",
   "theorems": [
    "C36_connections",
    "C36_find_connections",
    "C36_all_edges",
    "C36_edge_queries",
    "C36_parallel_grid",
    "C36_ranges_along_direction",
    "C36_ambiguous_ranges",
    "C36_interfaces_along_direction_partial",
    "C36_reversed_ring_refuted",
    "C36_reversed_row_refuted",
    "C36_double_edge_refuted"
   ],
   "note": "queries on patches/edges and the grids of a line are proved; the interface list of a line is proved for open lines and for closed lines left into a FRONT edge, and shown to contain duplicates otherwise (C36_reversed_ring_refuted); in lines crossing patches in opposite directions the interfaces are not chained (C36_reversed_row_refuted); an edge in two interfaces is accepted (C36_double_edge_refuted)"
  },
  {
   "property": "C37",
   "status": "partial",
   "theorems": [
    "C37_in_bounds",
    "C37_no_overlap",
    "C37_all_cells_used",
    "C37_range_slice",
    "C37_range_slice_accepts",
    "C37_bad_request_rejected",
    "C37_mixed_request_rejected",
    "C37_index_slice_partial",
    "C37_index_slice_refuted",
    "C37_order_unchecked_refuted",
    "C37_mdspan",
    "C37_view_shares",
    "C37_deepcopy",
    "C37_lifetime_partial",
    "C37_move_assignment_refuted"
   ],
   "note": "bijection between accepted (orders, position) combinations and allocated cells, slices, raw regions, views, copies and lifetime proved for every shape; operator[](Idx) is proved only when order 0 is asked along the positions left free (otherwise C37_index_slice_refuted), lifetime excludes move assignment (C37_move_assignment_refuted: double free); orders above NDerivs are not checked (C37_order_unchecked_refuted)"
  },
  {
   "property": "C38",
   "status": "partial",
   "theorems": [
    "C38_vlasov_strang",
    "C38_vlasov_reversible",
    "C38_strang_reversible",
    "C38_strang_commuting",
    "C38_rhs_strang_partial",
    "C38_rhs_order_refuted"
   ],
   "note": "Vlasov solver: full property; right-hand-side solver: refuted symmetric order (C38_rhs_order_refuted), proved when the sources commute"
  },
  {
   "property": "C39",
   "status": "proved",
   "theorems": [
    "C39_inverse_2x2",
    "C39_inverse_3x3",
    "C39_determinant_multiplicative"
   ],
   "note": ""
  },
  {
   "property": "C40",
   "status": "partial",
   "theorems": [
    "C40_ipow",
    "C40_ipow_int_min_refuted",
    "C40_factorial",
    "C40_factorial_21_refuted",
    "C40_neg_1_pow",
    "C40_neg_1_pow_negative_refuted",
    "C40_modulo"
   ],
   "note": "ipow, modulo proved on their whole domain except ipow(a,INT_MIN) (overflow); factorial exact up to 20, wraps from 21; neg_1_pow refuted for negative odd arguments"
  },
  {
   "property": "C41",
   "status": "partial",
   "theorems": [
    "C41_ell_access_faithful",
    "C41_view_same_elements",
    "C41_ell_norm",
    "C41_range_check_refuted"
   ],
   "note": "all clauses proved except the range check on k, which is refuted (k equal to the number of stored elements is accepted)"
  },
  {
   "property": "C42",
   "status": "partial",
   "theorems": [
    "C42_sorted_columns_untouched",
    "C42_single_matrix_sorted_partial",
    "C42_batch_preserved_refuted"
   ],
   "note": "proved for sorted patterns and batches of one matrix; refuted for two or more matrices (semantics of Ginkgo's create_view_for_item assumed)"
  },
  {
   "property": "C43",
   "status": "proved",
   "theorems": [
    "C43_gauss_legendre_tables",
    "C43_gauss_legendre_composite"
   ],
   "note": "tables checked to 1e-24 by kernel computation, composite rule by proof"
  },
  {
   "property": "C44",
   "status": "proved",
   "theorems": [
    "C44_cache_history",
    "C44_documented_usage",
    "C44_stale_coefficients_refuted"
   ],
   "note": "the stale-coefficient behaviour outside the documented usage is recorded as C44_stale_coefficients_refuted"
  },
  {
   "property": "C45",
   "status": "proved",
   "theorems": [
    "C45_assign_from_smaller",
    "C45_assign_from_larger"
   ],
   "note": ""
  },
  {
   "property": "C46",
   "status": "proved",
   "theorems": [
    "C46_periodic",
    "C46_extrapolation"
   ],
   "note": ""
  },
  {
   "property": "C47",
   "status": "proved",
   "theorems": [
    "C47_inverse",
    "C47_jacobian",
    "C47_inverse_at_argument",
    "C47_chain_rule",
    "C47_circular",
    "C47_czarny_jacobian",
    "C47_czarny_o_point",
    "C47_czarny_inverse"
   ],
   "note": ""
  },
  {
   "property": "C48",
   "status": "partial",
   "theorems": [
    "C48_identity",
    "C48_identity_inverse_refuted",
    "C48_linear",
    "C48_linear_inverse",
    "C48_product_partials",
    "C48_product_jacobian",
    "C48_product_jacobian_refuted",
    "C48_product_inverse"
   ],
   "note": "jacobian() of a product has the wrong sign when the argument type lists the dimensions in another order than the transformations (refuted); proved for products of two linear transformations."
  },
  {
   "property": "C49",
   "status": "proved",
   "theorems": [
    "C49_predcorr",
    "C49_restart",
    "C49_null_solver_refuted"
   ],
   "note": "C49_null_solver_refuted: NullQNSolver leaves the field buffers uninitialised"
  },
  {
   "property": "C50",
   "status": "proved",
   "theorems": [
    "C50_additive",
    "C50_moments",
    "C50_total",
    "C50_shape",
    "C50_shape_moments"
   ],
   "note": "moments of the shape on velocity grids that integrate the Maxwellian exactly"
  },
  {
   "property": "C51",
   "status": "partial",
   "theorems": [
    "C51_d3_exact",
    "C51_ghosted_grid",
    "C51_staggered_grid",
    "C51_uniform_grids",
    "C51_front_refuted",
    "C51_system_is_crank_nicolson",
    "C51_step",
    "C51_dominance",
    "C51_small_dt",
    "C51_mass_balance",
    "C51_conservation",
    "C51_tcoll_numerator",
    "C51_maxwellian_no_flux",
    "C51_diffusion_bounds",
    "C51_diffusion_positive",
    "C51_diffusion_derivative",
    "C51_diffusion_decreases"
   ],
   "note": "proved: the grids, the Crank-Nicolson system and its solution when no pivot vanishes (which is proved for small dt and under sign conditions), the coefficients, conservation by Vcoll/Tcoll, mass balance. Missing: pivots for every dt (false without conditions); refuted: index ranges not starting at 0."
  },
  {
   "property": "C52",
   "status": "proved",
   "theorems": [
    "C52_moments_agree",
    "C52_temperature_nonneg",
    "C52_shift",
    "C52_scale",
    "C52_maxwellian_moments",
    "C52_equilibrium",
    "C52_initial_condition"
   ],
   "note": ""
  },
  {
   "property": "C53",
   "status": "partial",
   "theorems": [
    "C53_uniform",
    "C53_nonuniform",
    "C53_throw",
    "C53_periodic_refuted",
    "C53_reversed_refuted",
    "C53_single_match_refuted"
   ],
   "note": "proved for non periodic edges (uniform: both orientations; non uniform: same orientation). Refuted: periodic uniform edges, opposite orientation on non uniform grids, a single common point."
  },
  {
   "property": "C54",
   "status": "partial",
   "theorems": [
    "C54_constructor",
    "C54_locator",
    "C54_locator_tolerance",
    "C54_evaluate_partial",
    "C54_derivative_outside",
    "C54_null_extrapolation",
    "C54_constant_extrapolation",
    "C54_fields",
    "C54_fields_abort",
    "C54_integrate",
    "C54_norm",
    "C54_error_norm",
    "C54_gap_refuted"
   ],
   "note": "constructor, locator (exact and within tolerance), values, derivatives and extrapolation proved for any number of rings; the evaluation theorem needs rings that touch exactly, because with the gap the constructor tolerates the point may leave the chosen patch (C54_gap_refuted); the one-dimensional B-spline basis values of DDC are an oracle"
  },
  {
   "property": "C55",
   "status": "partial",
   "theorems": [
    "C55_potential_and_field",
    "C55_potential",
    "C55_every_density",
    "C55_one_wave",
    "C55_frame",
    "C55_division_defined",
    "C55_nyquist_refuted"
   ],
   "note": "phi exact for every density, in any number of dimensions and batches; E exact in the directions without a component at the Nyquist frequency (always so for an odd number of points), wrong otherwise (C55_nyquist_refuted); ddc::fft/ifft and the Fourier mesh are given by their documented meaning"
  },
  {
   "property": "C56",
   "status": "proved",
   "theorems": [
    "C56_spatial",
    "C56_velocity",
    "C56_null",
    "C56_advection_1d",
    "C56_derivatives",
    "C56_constant_field",
    "C56_zero_step",
    "C56_transport",
    "C56_composition",
    "C56_lagrange_zero_step",
    "C56_lagrange_polynomial"
   ],
   "note": "interpolation methods are abstract (build, eval); the Lagrange method of the library is shown to be an instance"
  },
  {
   "property": "C57",
   "status": "proved",
   "theorems": [
    "C57_spatial_mass",
    "C57_velocity_mass",
    "C57_advection_1d_mass",
    "C57_whole_cells",
    "C57_no_failure"
   ],
   "note": ""
  },
  {
   "property": "C58",
   "status": "proved",
   "theorems": [
    "C58_feet",
    "C58_runge_kutta",
    "C58_order",
    "C58_crank_nicolson",
    "C58_charts",
    "C58_velocity"
   ],
   "note": "the interpolation of the advection field is an oracle pair (build, eval) of DDC; real arithmetic exact"
  },
  {
   "property": "C59",
   "status": "proved",
   "theorems": [
    "C59_values",
    "C59_deterministic",
    "C59_translation",
    "C59_zero_step",
    "C59_one_centre_value",
    "C59_curvilinear_with_centre",
    "C59_curvilinear"
   ],
   "note": "the interpolation of the function is an oracle pair (build, eval) of DDC; real arithmetic exact"
  },
  {
   "property": "C60",
   "status": "proved",
   "theorems": [
    "C60_periodic",
    "C60_periodic_weak",
    "C60_dirichlet",
    "C60_dirichlet_boundary",
    "C60_no_interior_function_refuted"
   ],
   "note": "B-spline basis, Gauss points and the spline of the density are inputs satisfying stated properties (partition of unity, table inside the basis, quadrature that controls the derivative); LAPACK is an oracle; exact real arithmetic; an assertion failure with two basis functions is a finding (_refuted)"
  },
  {
   "property": "C61",
   "status": "proved",
   "theorems": [
    "C61_determined",
    "C61_linear",
    "C61_exact",
    "C61_best_dirichlet",
    "C61_best_periodic"
   ],
   "note": "same inputs as C60"
  },
  {
   "property": "C62",
   "status": "proved",
   "theorems": [
    "C62_norm_contravariant",
    "C62_norm_covariant",
    "C62_gradient",
    "C62_partial_derivatives",
    "C62_curl",
    "C62_curl_of_gradient",
    "C62_gradient_field",
    "C62_norm_field"
   ],
   "note": "exact real arithmetic; the mapping's jacobian is assumed to be the determinant of its Jacobian matrix (proved for the analytic mappings in C24-C26)"
  },
  {
   "property": "C63",
   "status": "proved",
   "theorems": [
    "C63_value",
    "C63_vector_value",
    "C63_antisymmetric",
    "C63_bilinear",
    "C63_casimir",
    "C63_field"
   ],
   "note": "same model as C62; B = 0 (NaN in the code) is excluded"
  },
  {
   "property": "C64",
   "status": "proved",
   "theorems": [
    "C64_gradient_creator",
    "C64_constant",
    "C64_spline",
    "C64_shared_cache",
    "C64_two_orders_refuted"
   ],
   "note": "spline builder and evaluator are oracles; two creators with different dimension orders sharing a cache are covered by the refuted theorem"
  },
  {
   "property": "C65",
   "status": "partial",
   "theorems": [
    "C65_mean_partial",
    "C65_repeated_angle",
    "C65_last_angle_refuted",
    "C65_quadratic",
    "C65_affine",
    "C65_zero_radius",
    "C65_bounds",
    "C65_linear"
   ],
   "note": "holds at every angle but the last: the last theta row is overwritten with the first (C65_last_angle_refuted); C65_repeated_angle: with a repeated last angle every value is the mean; spline builder/evaluator are parameters"
  },
  {
   "property": "C66",
   "status": "proved",
   "theorems": [
    "C66_basis",
    "C66_derivable",
    "C66_deriv",
    "C66_exact",
    "C66_order"
   ],
   "note": "orders up to 20: factorial(size_t) wraps from 21 on (C40); exact real arithmetic"
  },
  {
   "property": "C67",
   "status": "partial",
   "theorems": [
    "C67_tensor",
    "C67_exact",
    "C67_knots",
    "C67_extrapolation_refuted",
    "C67_builder",
    "C67_two_periodic_refuted"
   ],
   "note": "extrapolation rules are never applied (C67_extrapolation_refuted); the builder leaves coefficients unwritten with two periodic dimensions (C67_two_periodic_refuted); the other clauses are proved"
  },
  {
   "property": "C68",
   "status": "partial",
   "theorems": [
    "C68_relation",
    "C68_approximation",
    "C68_break_point_rejected",
    "C68_extra_point_rejected",
    "C68_two_cells_refuted",
    "C68_two_cells_extra_1_refuted",
    "C68_two_cells_extra_2_refuted",
    "C68_one_cell_refuted"
   ],
   "note": "proved for all grids with at least 3 cells on patch 1 (and on patch 2 at least 3, or 2 without extra point); refuted with 2 cells on patch 1 (C68_two_cells_refuted: stale slot), with 2 cells and an extra interpolation point on either patch (C68_two_cells_extra_1_refuted, C68_two_cells_extra_2_refuted) and for the check of the number of cells (C68_one_cell_refuted); exact real arithmetic; both patches with 2 cells, the second with an extra point, is not covered"
  },
  {
   "property": "C69",
   "status": "partial",
   "theorems": [
    "C69_uniform_relation",
    "C69_different_steps_refuted"
   ],
   "note": "proved for equal steps; refuted for different steps of the two patches (C69_different_steps_refuted: left and right cell lengths exchanged)"
  },
  {
   "property": "C70",
   "status": "proved",
   "theorems": [
    "C70_bernstein",
    "C70_degree_21_refuted"
   ],
   "note": "reals for doubles; D = 21 refuted (64-bit factorial)"
  },
  {
   "property": "C71",
   "status": "proved",
   "theorems": [
    "C71_polar_index",
    "C71_index_inverse",
    "C71_refused",
    "C71_view"
   ],
   "note": ""
  },
  {
   "property": "C72",
   "status": "proved",
   "theorems": [
    "C72_tensor_form",
    "C72_tensor_form_low",
    "C72_constants",
    "C72_bounds",
    "C72_linear",
    "C72_coordinates"
   ],
   "note": "B-spline evaluation of DDC is an oracle described by the Cox - de Boor recursion; reals for doubles; more than C+1 radial cells and, for C = 1, a second row of control points not reduced to the pole"
  },
  {
   "property": "C73",
   "status": "proved",
   "theorems": [
    "C73_pole",
    "C73_differentiable",
    "C73_pole_continuous"
   ],
   "note": "same oracle; differentiability in the plane assumes that the distance to the pole is at least mu r (shown for a disc)"
  },
  {
   "property": "C74",
   "status": "partial",
   "theorems": [
    "C74_outer_rule",
    "C74_inside",
    "C74_periodic",
    "C74_few_cells_refuted",
    "C74_derivative_not_wrapped_refuted"
   ],
   "note": "periodicity, outer rule and definedness for more than C+1 radial cells; refuted for fewer radial cells (the coefficients are read out of range) and for the derivative operators (the angle is not wrapped)"
  },
  {
   "property": "C75",
   "status": "proved",
   "theorems": [
    "C75_integrals"
   ],
   "note": "ddc::integrals is an oracle: integrals of the B-splines over the domain, 0 for repeated poloidal elements"
  },
  {
   "property": "C76",
   "status": "proved",
   "theorems": [
    "C76_jacobian",
    "C76_jacobian_is_derivative",
    "C76_pole"
   ],
   "note": "derivatives strictly inside of the cells; DDC's 2D evaluator is an oracle"
  },
  {
   "property": "C77",
   "status": "proved",
   "theorems": [
    "C77_pattern"
   ],
   "note": "int is unbounded"
  },
  {
   "property": "C78",
   "status": "proved",
   "theorems": [
    "C78_progress",
    "C78_deterministic",
    "C78_matrix_is_weak_form",
    "C78_functions",
    "C78_symmetric",
    "C78_quadrature"
   ],
   "note": "arithmetic over the reals; parallel iterations are atomic and in any order"
  },
  {
   "property": "C79",
   "status": "proved",
   "theorems": [
    "C79_solution",
    "C79_progress",
    "C79_boundary",
    "C79_grid"
   ],
   "note": "Ginkgo's conjugate gradient is an oracle with residuals of at most eps"
  },
  {
   "property": "C80",
   "status": "proved",
   "theorems": [
    "C80_semidefinite",
    "C80_positive_definite",
    "C80_one_solution"
   ],
   "note": "exact arithmetic"
  },
  {
   "property": "C81",
   "status": "proved",
   "theorems": [
    "C81_five_poloidal_cells_refuted",
    "C81_four_poloidal_cells_refuted",
    "C81_few_radial_cells_refuted",
    "C81_degrees_refuted",
    "C81_stale_preconditioner_refuted"
   ],
   "note": "refutations: the limits of the solver, see Findings"
  },
  {
   "property": "C82",
   "status": "proved",
   "theorems": [
    "C82_progress",
    "C82_field",
    "C82_exact",
    "C82_interpolation",
    "C82_mappings",
    "C82_polar_spline",
    "C82_polar_slopes",
    "C82_of_values"
   ],
   "note": "potential given by the evaluator's derivatives (polar evaluator modelled in Psp, DDC's evaluator an oracle); exact real arithmetic"
  },
  {
   "property": "C83",
   "status": "proved",
   "theorems": [
    "C83_progress",
    "C83_stream_function",
    "C83_same_vector",
    "C83_same_centre",
    "C83_incompressible"
   ],
   "note": "jacobian() assumed equal to the determinant of the Jacobian matrix (proved for the analytical mappings in C19)"
  },
  {
   "property": "C84",
   "status": "proved",
   "theorems": [
    "C84_documented_direction_refuted"
   ],
   "note": "refuted: the code advects with (E_y, -E_x)"
  },
  {
   "property": "C85",
   "status": "proved",
   "theorems": [
    "C85_run",
    "C85_progress",
    "C85_independent",
    "C85_restart",
    "C85_event_time_refuted"
   ],
   "note": "refuted part: events are labelled one dt early"
  },
  {
   "property": "C86",
   "status": "proved",
   "theorems": [
    "C86_run",
    "C86_progress",
    "C86_independent",
    "C86_restart",
    "C86_steady",
    "C86_documented_scheme_refuted",
    "C86_second_order_refuted"
   ],
   "note": "refuted parts: the documented correction field and second order accuracy; what is implemented is proved"
  },
  {
   "property": "C87",
   "status": "proved",
   "theorems": [
    "C87_run",
    "C87_progress",
    "C87_independent",
    "C87_restart",
    "C87_commented_scheme_refuted",
    "C87_last_event_refuted"
   ],
   "note": "refuted parts: the commented prediction field, the density of the last event with separate memory spaces; what is implemented is proved"
  },
  {
   "property": "C88",
   "status": "proved",
   "theorems": [
    "C88_iteration",
    "C88_progress",
    "C88_converges",
    "C88_error",
    "C88_converged_refuted"
   ],
   "note": "refuted part: silent return after 50 iterations"
  },
  {
   "property": "C89",
   "status": "proved",
   "theorems": [
    "C89_invariants",
    "C89_no_steps"
   ],
   "note": ""
  },
  {
   "property": "C90",
   "status": "partial",
   "theorems": [
    "C90_solution",
    "C90_documented_partial",
    "C90_documented_refuted",
    "C90_filled_disc_refuted"
   ],
   "note": "For W1 > 0 the implemented equation is not the documented one (refuted with a concrete geometry); R1 = 0 gives no finite number (refuted). Negative modes and rounding are not covered; the correctness of the documented relation itself (Davidson) is physics and not proved."
  },
  {
   "property": "C91",
   "status": "proved",
   "theorems": [
    "C91_equilibrium",
    "C91_perturbation"
   ],
   "note": "Exact real arithmetic."
  },
  {
   "property": "C92",
   "status": "proved",
   "theorems": [
    "C92_search",
    "C92_progress",
    "C92_result",
    "C92_default",
    "C92_failure",
    "C92_settled_refuted",
    "C92_converged_refuted"
   ],
   "note": "The solver is an oracle; convergence of the iteration is not claimed (the code does not ensure it: two refuted statements)."
  },
  {
   "property": "C93",
   "status": "proved",
   "theorems": [
    "C93_vortices",
    "C93_kelvin_helmholtz"
   ],
   "note": "One point of the grid at a time; exact real arithmetic."
  },
  {
   "property": "C94",
   "status": "proved",
   "theorems": [
    "C94_run",
    "C94_progress",
    "C94_restart",
    "C94_invariant",
    "C94_no_steps",
    "C94_saved_state",
    "C94_saving_refuted"
   ],
   "note": "The Poisson solver and the advections are oracles with results in res; hypothesis: the solver does not modify its right-hand side (otherwise refuted)."
  },
  {
   "property": "C95",
   "status": "proved",
   "theorems": [
    "C95_maxwellian_moments",
    "C95_maxwellian_density_velocity_temperature",
    "C95_moment_unique",
    "C95_truncation",
    "C95_bump_on_tail"
   ],
   "note": ""
  },
  {
   "property": "C96",
   "status": "proved",
   "theorems": [
    "C96_marginal",
    "C96_moments",
    "C96_density_velocity_temperature",
    "C96_symmetric",
    "C96_moment_unique",
    "C96_perturbation_bounded",
    "C96_perturbation_periodic",
    "C96_perturbation_mean",
    "C96_initial_state"
   ],
   "note": ""
  },
  {
   "property": "C97",
   "status": "proved",
   "theorems": [
    "C97_parallel_moments",
    "C97_perpendicular_energy",
    "C97_unit_mass",
    "C97_moment_unique",
    "C97_density_any_mass_refuted",
    "C97_initial_state"
   ],
   "note": "the equilibrium with unit mass; for other masses the claim about the density is refuted (see Findings)"
  },
  {
   "property": "C98",
   "status": "proved",
   "theorems": [
    "C98_kinetic_source",
    "C98_exchange",
    "C98_exchange_conserves"
   ],
   "note": ""
  },
  {
   "property": "C99",
   "status": "proved",
   "theorems": [
    "C99_mpi_density",
    "C99_serial_density",
    "C99_no_adiabatic_agrees",
    "C99_adiabatic_once_refuted"
   ],
   "note": "for kinetic species; that the adiabatic charge is added once is refuted with more than one rank (see Findings)"
  },
  {
   "property": "C100",
   "status": "proved",
   "theorems": [
    "C100_mpi_vlasov",
    "C100_serial_agrees"
   ],
   "note": ""
  },
  {
   "property": "C101",
   "status": "proved",
   "theorems": [
    "C101_run",
    "C101_landau_solver",
    "C101_landau_field",
    "C101_ranks_agree"
   ],
   "note": ""
  },
  {
   "property": "C102",
   "status": "proved",
   "theorems": [
    "C102_fits",
    "C102_pole",
    "C102_o_point"
   ],
   "note": ""
  },
  {
   "property": "C103",
   "status": "proved",
   "theorems": [
    "C103_unique",
    "C103_affine",
    "C103_circular",
    "C103_circular_polar"
   ],
   "note": ""
  },
  {
   "property": "C104",
   "status": "proved",
   "theorems": [
    "C104_break_points",
    "C104_refined"
   ],
   "note": ""
  },
  {
   "property": "C105",
   "status": "partial",
   "theorems": [
    "C105_uniform",
    "C105_random_partial",
    "C105_random_default_partial",
    "C105_random_default_refuted",
    "C105_random_beyond_refuted"
   ],
   "note": "strictness is refuted for the default non_uniformity = 1 (weak order proved) and order for more than 1"
  },
  {
   "property": "C106",
   "status": "partial",
   "theorems": [
    "C106_sampling_partial",
    "C106_sound",
    "C106_coordinates",
    "C106_wrong_number",
    "C106_break_points",
    "C106_uniform",
    "C106_crowded_refuted",
    "C106_argument_refuted",
    "C106_inner_refuted"
   ],
   "note": "the count of points is exact when no inner cell is empty; refuted otherwise (overconstrained cells accepted); the argument is modified for periodic splines (refuted); equally spaced points inside the domain are refused (refuted)"
  },
  {
   "property": "C107",
   "status": "partial",
   "theorems": [
    "C107_starts",
    "C107_restart",
    "C107_exits",
    "C107_total",
    "C107_overload",
    "C107_overload_restart",
    "C107_restart_refuted",
    "C107_dump_refuted"
   ],
   "note": "start, restart, dump and failure characterised for every command line; validation of the restart iteration and of the dump file is refuted"
  },
  {
   "property": "C108",
   "status": "partial",
   "theorems": [
    "C108_every_file",
    "C108_crash",
    "C108_as_uninterrupted",
    "C108_missing",
    "C108_any_time_diag",
    "C108_checkpoint_refuted",
    "C108_iteration_argument_refuted",
    "C108_changed_diag_refuted"
   ],
   "note": "the content of every complete file, every crash point and the equivalence with the uninterrupted run are proved; refuted: a restart can lose the file it starts from, --iter-restart is a file number and not an iteration, a changed time_diag breaks the order of the files"
  },
  {
   "property": "C109",
   "status": "partial",
   "theorems": [
    "C109_schedule",
    "C109_last_state",
    "C109_guiding_centre",
    "C109_collisions",
    "C109_collision_step",
    "C109_collision_steady",
    "C109_last_state_refuted",
    "C109_spacing_refuted",
    "C109_short_time_diag",
    "C109_applications_refuted"
   ],
   "note": "the schedule of three executables is proved; refuted: saving the last state, exact spacing by time_diag, number of applications of the collision operator; time_diag < deltat is undefined behaviour"
  },
  {
   "property": "C110",
   "status": "partial",
   "theorems": [
    "C110_quotient",
    "C110_quotient_b64",
    "C110_quotient_b64_exact",
    "C110_polar_exact",
    "C110_polar_bounds",
    "C110_polar_total",
    "C110_decimal_refuted",
    "C110_steady_refuted",
    "C110_polar_refuted",
    "C110_polar_no_step"
   ],
   "note": "guiding centre: exact in real arithmetic, within one in binary64 (proved for all doubles); refuted for decimal parameters and for the polar executables, for which the exact case and bounds are proved"
  },
  {
   "property": "C111",
   "status": "partial",
   "theorems": [
    "C111_arguments_partial",
    "C111_interpolates",
    "C111_nothing_missing",
    "C111_missing_derivatives_detected_refuted",
    "C111_any_execution_space_refuted",
    "C111_any_data"
   ],
   "note": "Arguments, interpolation and 'nothing missing' proved for every grid, boundary condition and data when the class runs in the default execution space (or needs no mixed derivative). Refuted: missing derivatives are never reported by an exception and lead to out-of-bounds reads; the mixed-derivative kernel runs in the default execution space whatever the class's."
  },
  {
   "property": "C112",
   "status": "partial",
   "theorems": [
    "C112_check_conv",
    "C112_ell_solve",
    "C112_ell_solution",
    "C112_csr_batch_solve",
    "C112_csr_single_solve",
    "C112_csr_single_in_place",
    "C112_view_partial",
    "C112_view_refuted",
    "C112_ell_criterion_refuted",
    "C112_log_agrees_with_outcome_refuted"
   ],
   "note": "Outcome, atomicity and log of ELL, batch CSR and per-system CSR solves proved for every solver behaviour, batch, layout without padding and thread distribution. Refuted: padded views are misread; the ELL solver documents and configures a relative criterion but checks the absolute one (spurious exceptions and silently wrong solutions); the log can say 'did not converge' for a solve that converged."
  },
  {
   "property": "C113",
   "status": "proved",
   "theorems": [
    "C113_replicates",
    "C113_uncovered"
   ],
   "note": "Fields as layout-right arrays of any dimensions; uncovered sources shown to read outside."
  },
  {
   "property": "C114",
   "status": "partial",
   "theorems": [
    "C114_configuration_data",
    "C114_koliop_arguments",
    "C114_memory_valid",
    "C114_every_dimension_refuted",
    "C114_mu_uniform_refuted",
    "C114_coefficients_checked_refuted"
   ],
   "note": "Proved for every geometry (spoofed or not) and every VparMu configuration; the claim that every dimension is checked for a power of two, that mu is checked for uniformity and that the coefficients' sizes are checked are refuted. Koliop is an oracle."
  },
  {
   "property": "C115",
   "status": "partial",
   "theorems": [
    "C115_life_cycle_partial",
    "C115_all_released",
    "C115_copies_refuted",
    "C115_copy_released_twice",
    "C115_sizes_checked_refuted"
   ],
   "note": "Proved for programs without copies and with large enough distribution functions; refuted for copies (double release) and for smaller distribution functions (no check). Koliop is an oracle."
  },
  {
   "property": "C116",
   "status": "partial",
   "theorems": [
    "C116_mem_new",
    "C116_read",
    "C116_component",
    "C116_assign",
    "C116_assign_each",
    "C116_view",
    "C116_ranges_refuted"
   ],
   "note": "Proved for vector fields whose components share their range (all those of VectorFieldMem and their slices); refuted for vector fields built from fields of different ranges, which nothing checks. One memory space."
  },
  {
   "property": "C117",
   "status": "proved",
   "theorems": [
    "C117_slice",
    "C117_slice_outside",
    "C117_sub_range",
    "C117_sub_range_outside"
   ],
   "note": "Slices by indices and by sub-ranges, with the converse (outside: undefined behaviour)."
  },
  {
   "property": "C118",
   "status": "proved",
   "theorems": [
    "C118_deepcopy",
    "C118_deepcopy_extents",
    "C118_deepcopy_only_if"
   ],
   "note": "Under disjointness of the two memories; the assertion on the extents is modelled as enabled."
  },
  {
   "property": "C119",
   "status": "partial",
   "theorems": [
    "C119_pdi_get_arrays",
    "C119_pdi_expose_vf",
    "C119_pdi_expose_idx_range",
    "C119_pdi_get_arrays_odd_refuted",
    "C119_pdi_get_arrays_missing_refuted"
   ],
   "note": "Proved for complete files and paired arguments; refuted for an odd number of arguments and for missing data (silently ignored). PDI is an oracle."
  },
  {
   "property": "C120",
   "status": "partial",
   "theorems": [
    "C120_norm_components",
    "C120_norm_inf",
    "C120_norm_schedule",
    "C120_multipatch_norm",
    "C120_error_zero",
    "C120_error_triangle",
    "C120_multipatch_error",
    "C120_nan_refuted",
    "C120_nan_schedule_refuted"
   ],
   "note": "Proved for numbers (infinities included) in exact arithmetic; refuted for NaN, which is ignored for vectors and on several patches, and makes the norm of a field depend on the schedule."
  },
  {
   "property": "C121",
   "status": "partial",
   "theorems": [
    "C121_norm_L1_value",
    "C121_norm_L2_value",
    "C121_L1_norm",
    "C121_L2_norm",
    "C121_unchecked_range_refuted",
    "C121_negative_coefficient_refuted"
   ],
   "note": "Proved for fields containing the quadrature points and positive coefficients; refuted: the range of the field is not checked; a negative coefficient gives NaN. Exact arithmetic."
  },
  {
   "property": "C122",
   "status": "partial",
   "theorems": [
    "C122_new",
    "C122_get_iff",
    "C122_convert",
    "C122_convert_only",
    "C122_temporary",
    "C122_temporary_order",
    "C122_field_from",
    "C122_views",
    "C122_field_mem",
    "C122_deepcopy",
    "C122_deepcopy_extents",
    "C122_same_type_refuted",
    "C122_field_mem_args_refuted"
   ],
   "note": "Proved when T gives different types to different patches; refuted otherwise (get does not compile), and the constructors MultipatchFieldMem([label,] args...) never compile."
  },
  {
   "property": "C123",
   "status": "proved",
   "theorems": [
    "C123_boundary_conditions",
    "C123_build",
    "C123_derivatives_required",
    "C123_interface"
   ],
   "note": "For every solver of the patches (DDC's builder is a parameter; its rule on derivatives is stated as a definition); fields of different patches do not share memory."
  },
  {
   "property": "C124",
   "status": "proved",
   "theorems": [
    "C124_boundary_conditions",
    "C124_build"
   ],
   "note": "For every solver of the patches (DDC's builder is a parameter)."
  },
  {
   "property": "C125",
   "status": "partial",
   "theorems": [
    "C125_print",
    "C125_span",
    "C125_injective",
    "C125_empty_refuted"
   ],
   "note": "Proved unless the last dimension is empty: refuted then (std::size_t underflow, out-of-bounds read)."
  },
  {
   "property": "C126",
   "status": "partial",
   "theorems": [
    "C126_maxwellian",
    "C126_maxwellian_missing",
    "C126_bump_on_tail",
    "C126_bump_on_tail_missing",
    "C126_vparmu",
    "C126_vparmu_missing",
    "C126_perturbation",
    "C126_perturbation_missing",
    "C126_nbiter",
    "C126_nbiter_refuted",
    "C126_string",
    "C126_string_refuted"
   ],
   "note": "Proved for all files, with integers which are values of int; larger integers are wrapped (refuted), and the string leaks when its copy throws (refuted)."
  },
  {
   "property": "C127",
   "status": "partial",
   "theorems": [
    "C127_equilibrium",
    "C127_equilibrium_parameters",
    "C127_spline_grid",
    "C127_spline_grid_total",
    "C127_pseudo_uniform_grid",
    "C127_mesh_file_refuted"
   ],
   "note": "Proved, except that the documented entry _MeshFile is not read (refuted)."
  },
  {
   "property": "C128",
   "status": "proved",
   "theorems": [
    "C128_durations"
   ],
   "note": "For both signs of the duration; doubles are exact (below 2^53 ms)."
  },
  {
   "property": "C129",
   "status": "partial",
   "theorems": [
    "C129_partial",
    "C129_inside",
    "C129_refuted",
    "C129_ends_refuted"
   ],
   "note": "Proved when x_min + length is exact; refuted otherwise: 1.2 on [0.2, 1.2) becomes 0.19999999999999996, and with a period below the spacing of doubles the loop does not end."
  },
  {
   "property": "C130",
   "status": "partial",
   "theorems": [
    "C130_partial",
    "C130_power_of_two",
    "C130_refuted"
   ],
   "note": "Proved up to 2^-28 periods, and exactly on domains [0, 2^e]; refuted in general: 7.7 on [0, 1.1] becomes -8.9e-16."
  },
  {
   "property": "C131",
   "status": "partial",
   "theorems": [
    "C131_partial",
    "C131_power_of_two",
    "C131_below",
    "C131_refuted",
    "C131_asserts_refuted"
   ],
   "note": "Proved for coordinates of the domain; refuted outside: break points 0, 0.5, 1.1 and the coordinate 7.7 make the bisection endless (or an assertion fail)."
  },
  {
   "property": "C132",
   "status": "partial",
   "theorems": [
    "C132_partial",
    "C132_origin_zero",
    "C132_starts_before",
    "C132_refuted",
    "C132_end_refuted"
   ],
   "note": "Proved for degree 2 and more, and for every degree on a grid which begins at 0; refuted for degree 1: on the knots -1 + 0.7 i the assertion of eval_basis fails at 1.0999999999999999."
  },
  {
   "property": "C133",
   "status": "partial",
   "theorems": [
    "C133_partial",
    "C133_refuted"
   ],
   "note": "Proved when the step is at least 2^-40 times the size of the coordinates; refuted for a step below the spacing of doubles."
  },
  {
   "property": "C134",
   "status": "partial",
   "theorems": [
    "C134_partial",
    "C134_refuted"
   ],
   "note": "Proved for degree 2 and more; refuted for degree 1 by the same coordinate as C132."
  },
  {
   "property": "C135",
   "status": "partial",
   "theorems": [
    "C135_partial",
    "C135_search",
    "C135_ordered",
    "C135_refuted"
   ],
   "note": "Proved when a cell is at least 2^-40 times the size of the ends; refuted for 4 cells between 2^53 and 2^53 + 2 (equal points); non-decreasing points for cells of any size."
  }
 ]
}