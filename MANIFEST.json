{
 "claims": [
  {
   "property": "C01",
   "status": "proved",
   "theorems": [
    "C01_partition_of_unity",
    "C01_handler_partition_of_unity",
    "C01_plus_equals_variant",
    "C01_handler_above_MaxP",
    "C01_handler_every_degree_refuted"
   ],
   "note": "Templates: all degrees. Run-time handler: p <= MaxP; above MaxP it silently uses degree 0 (refuted for unrestricted p). Exact real arithmetic."
  },
  {
   "property": "C02",
   "status": "proved",
   "theorems": [
    "C02_coefficients_vs_basis",
    "C02_handler_coefficients_vs_basis",
    "C02_derivative_basis",
    "C02_tensor_product_layout",
    "C02_tensor_product_derivatives",
    "C02_outer_product_layout",
    "C02_divergence_outer_product"
   ],
   "note": "Also the tensor-product layouts phiphi, phiphi_dx, phiphi_dy and the outer products of Basis.hpp."
  },
  {
   "property": "C03",
   "status": "proved",
   "theorems": [
    "C03_derivative",
    "C03_handler_derivative"
   ],
   "note": "Exact real arithmetic."
  },
  {
   "property": "C04",
   "status": "proved",
   "theorems": [
    "C04_endpoints_and_convex_hull",
    "C04_handler_endpoints_and_convex_hull"
   ],
   "note": "Exact real arithmetic."
  },
  {
   "property": "C05",
   "status": "proved",
   "theorems": [
    "C05_uniform_knot_vector",
    "C05_bezier_knot_vector",
    "C05_degree_read_back"
   ],
   "note": ""
  },
  {
   "property": "C06",
   "status": "proved",
   "theorems": [
    "C06_unique_knots",
    "C06_unique_knots_separated",
    "C06_find_location",
    "C06_find_location_in_range",
    "C06_find_location_exact_refuted"
   ],
   "note": ""
  },
  {
   "property": "C07",
   "status": "proved",
   "theorems": [
    "C07_coefficients_unique",
    "C07_deboor_is_the_bspline",
    "C07_matrix_overload",
    "C07_tensor_product",
    "C07_no_division_by_zero_on_asserted_range_refuted"
   ],
   "note": "Half-open parameter interval; vector, matrix and tensor-product overloads. The asserted range additionally contains points where a denominator vanishes (refuted)."
  },
  {
   "property": "C08",
   "status": "proved",
   "theorems": [
    "C08_convex_hull",
    "C08_constants",
    "C08_partition_of_unity",
    "C08_clamped_ends"
   ],
   "note": ""
  },
  {
   "property": "C09",
   "status": "proved",
   "theorems": [
    "C09_rescale",
    "C09_interpolation_mask",
    "C09_interpolation_points",
    "C09_get_coefficients",
    "C09_collocation_invertible"
   ],
   "note": ""
  },
  {
   "property": "C10",
   "status": "proved",
   "theorems": [
    "C10_uniform_elements",
    "C10_histories_defined",
    "C10_any_history_traversal",
    "C10_cluster_iteration",
    "C10_node_data"
   ],
   "note": ""
  },
  {
   "property": "C11",
   "status": "proved",
   "theorems": [
    "C11_leaves_tile_patches"
   ],
   "note": ""
  },
  {
   "property": "C12",
   "status": "proved",
   "theorems": [
    "C12_reordering_is_permutation",
    "C12_lookup_finds_element"
   ],
   "note": ""
  },
  {
   "property": "C13",
   "status": "proved",
   "theorems": [
    "C13_global_ids_distinct",
    "C13_global_ids_of_a_level"
   ],
   "note": ""
  },
  {
   "property": "C14",
   "status": "proved",
   "theorems": [
    "C14_enclosing_ball",
    "C14_smallest"
   ],
   "note": "also: no smaller ball contains both, no division by zero."
  },
  {
   "property": "C15",
   "status": "proved",
   "theorems": [
    "C15_balls_enclose",
    "C15_balls_enclose_surface_corners"
   ],
   "note": "any refinement history; combined with the point list for every geometry whose patches fit together. Only element corners are enclosed: the surface between them is not considered by the code."
  },
  {
   "property": "C16",
   "status": "proved",
   "theorems": [
    "C16_neighbours_share_edges",
    "C16_symmetric",
    "C16_any_history",
    "C16_three_patches_refuted"
   ],
   "note": "updateTopology on any element list with manifold edges (neighbour recorded iff the other element has the same vertex pair, symmetric), and the same for every element of every level after any refinement history of a patch mesh without doubly connected patches. Counterexample for an edge shared by three patches."
  },
  {
   "property": "C17",
   "status": "proved",
   "theorems": [
    "C17_interfaces",
    "C17_two_shared_edges_refuted"
   ],
   "note": "for every mesh in which two patches share at most one edge, at every refinement history; counterexample when two patches share two edges."
  },
  {
   "property": "C18",
   "status": "proved",
   "theorems": [
    "C18_index_is_point",
    "C18_indices_in_range",
    "C18_geometries",
    "C18_corner_indices",
    "C18_two_shared_edges_refuted"
   ],
   "note": "stronger than stated: for any (also local) refinement history two element corners have the same index iff they are the same point of the glued surface; indices are below get_number_of_points() and all used; corner indices of the patches identify coinciding corners. Counterexample when two patches share two edges."
  },
  {
   "property": "C19",
   "status": "proved",
   "theorems": [
    "C19_edge_list",
    "C19_edge_dofs"
   ],
   "note": "release build: all dimensions; with asserts exactly the dimensions in which the side is not longer than the other direction."
  },
  {
   "property": "C20",
   "status": "proved",
   "theorems": [
    "C20_pairing",
    "C20_sign",
    "C20_aligned_refuted"
   ],
   "note": "all edge pairs and numbers of dofs; for patches of opposite orientation (edge run through in the same direction) the pairing is wrong (refuted)."
  },
  {
   "property": "C21",
   "status": "proved",
   "theorems": [
    "C21_glue_matrix",
    "C21_order_refuted"
   ],
   "note": ""
  },
  {
   "property": "C22",
   "status": "proved",
   "theorems": [
    "C22_groups",
    "C22_mesh"
   ],
   "note": "all interface lists between different patches; the composition tree -> interfaces -> groups -> glue matrix is proved for every consistently oriented mesh whenever the clean-up leaves no gap (see C23)."
  },
  {
   "property": "C23",
   "status": "proved",
   "theorems": [
    "C23_cleanup",
    "C23_past_the_end_refuted",
    "C23_empty_group_refuted",
    "C23_few_patches",
    "C23_five_patches_sharp"
   ],
   "note": "the plain claim without a condition on the mesh is false of the code: C23_past_the_end_refuted and C23_empty_group_refuted give two closed oriented meshes with ten patches (five at two corners) on which the loop runs past the end, respectively leaves an empty group that makes the assembly read dofs[0] of an empty vector"
  },
  {
   "property": "C24",
   "status": "proved",
   "theorems": [
    "C24_div_identification",
    "C24_mesh_sides"
   ],
   "note": "all interface lists in which a side of a patch occurs at most once, which holds for the interfaces of every mesh of C17; includes the resulting glue matrix."
  },
  {
   "property": "C25",
   "status": "proved",
   "theorems": [
    "C25_discontinuous_defined",
    "C25_continuous_defined",
    "C25_discontinuous_exact",
    "C25_discontinuous_error",
    "C25_continuous_exact",
    "C25_continuous_error",
    "C25_div_defined",
    "C25_div_exact",
    "C25_div_error",
    "C25_lost_coefficients",
    "C25_high_degree_refuted"
   ],
   "note": "double is R and the LU solve is assumed exact (good_solve), so the coefficients compared with the tolerance are the exact ones. The plain claim (equality for all degrees) is false: C25_high_degree_refuted, C25_lost_coefficients."
  },
  {
   "property": "C26",
   "status": "proved",
   "theorems": [
    "C26_leaves_partition",
    "C26_uniform_meshes",
    "C26_ungraded_diagonal_lost",
    "C26_block_dimensions",
    "C26_cluster_near_itself"
   ],
   "note": "every refinement history in which no leaf is more than min_cluster_level levels above the finest (uniform meshes: any min_cluster_level >= 0), any admissibility test; where this fails the code loses the diagonal entries of the coarse leaves (C26_ungraded_diagonal_lost)."
  },
  {
   "property": "C27",
   "status": "proved",
   "theorems": [
    "C27_leaf_classification",
    "C27_dense_blocks_small"
   ],
   "note": "balls are parameters (None = the infinite radius of the root); dense blocks have at most 4^min_cluster_level rows and columns of elements."
  },
  {
   "property": "C28",
   "status": "proved",
   "theorems": [
    "C28_schedule_independent",
    "C28_execution_exists",
    "C28_accesses_in_range"
   ],
   "note": "small-step model of the OpenMP team (single nowait, critical); any number of threads, any interleaving; all index ranges read and written are inside the matrices."
  },
  {
   "property": "C29",
   "status": "proved",
   "theorems": [
    "C29_product",
    "C29_matrix_exists",
    "C29_linear"
   ],
   "note": "uniform meshes (the number of elements per cluster is computed from the level); moment and transfer matrices, dense blocks and interpolation blocks are arbitrary real matrices."
  },
  {
   "property": "C30",
   "status": "proved",
   "theorems": [
    "C30_adjoint"
   ],
   "note": ""
  },
  {
   "property": "C31",
   "status": "proved",
   "theorems": [
    "C31_lagrange",
    "C31_cardinal",
    "C31_reproduces_polynomials",
    "C31_chebychev_points"
   ],
   "note": "any pairwise distinct points; the Chebyshev points of the code are shown to be distinct, increasing and inside (0,1)."
  },
  {
   "property": "C32",
   "status": "proved",
   "theorems": [
    "C32_positions"
   ],
   "note": ""
  },
  {
   "property": "C33",
   "status": "proved",
   "theorems": [
    "C33_each_entry_once",
    "C33_assembly",
    "C33_rows_covered",
    "C33_symmetric",
    "C33_assembly_exists",
    "C33_local_refinement_refuted"
   ],
   "note": "every uniformly refined mesh, any number of components; includes symmetry of the projected matrix. Refuted for locally refined meshes: ids are per level, so blocks overlap and ids exceed the matrix."
  },
  {
   "property": "C34",
   "status": "proved",
   "theorems": [
    "C34_square",
    "C34_corners_and_edges",
    "C34_composition",
    "C34_bijective"
   ],
   "note": ""
  },
  {
   "property": "C35",
   "status": "proved",
   "theorems": [
    "C35_classification",
    "C35_same_direction_refuted",
    "C35_wrong_edge_refuted",
    "C35_level_zero_refuted"
   ],
   "note": "Refuted outside the hypotheses: edges run through in the same direction are reported as vertices or as the wrong edge; unrefined patches may share two corners of which one is reported."
  },
  {
   "property": "C36",
   "status": "proved",
   "theorems": [
    "C36_far_field_points",
    "C36_mesh",
    "C36_singular_kernels",
    "C36_local_refinement_refuted",
    "C36_regular",
    "C36_identical",
    "C36_edge",
    "C36_vertex",
    "C36_precomputed",
    "C36_bilinear_form",
    "C36_result_exists",
    "C36_identical_points",
    "C36_edge_points",
    "C36_vertex_points"
   ],
   "note": "real arithmetic. Refuted for locally refined meshes: computeFfieldQnodes writes out of range because element numbers restart on every level."
  },
  {
   "property": "C37",
   "status": "proved",
   "theorems": [
    "C37_tables",
    "C37_exact"
   ],
   "note": "the decimal numbers of the source, in exact rational arithmetic (rounding to double is not modelled)."
  },
  {
   "property": "C38",
   "status": "proved",
   "theorems": [
    "C38_tensor_product",
    "C38_exactness",
    "C38_lookup"
   ],
   "note": "includes the finding: an index beyond the order silently selects the one-point rule."
  },
  {
   "property": "C39",
   "status": "proved",
   "theorems": [
    "C39_denominator",
    "C39_singular_degree",
    "C39_monotone",
    "C39_assertion"
   ],
   "note": "real arithmetic, truncation to int."
  },
  {
   "property": "C40",
   "status": "proved",
   "theorems": [
    "C40_behaves_like_values",
    "C40_moved_from_matrix"
   ],
   "note": "programs of resize, write and assignment on any number of matrices. A moved-from matrix keeps its sizes but has no cells (C40_moved_from_matrix)."
  },
  {
   "property": "C41",
   "status": "proved",
   "theorems": [
    "C41_evaluate_after_assignment",
    "C41_assign_same_size",
    "C41_assign_to_default_undefined",
    "C41_original_defined",
    "C41_assign_refuted"
   ],
   "note": "refuted as stated: operator= does not copy the reordering vector, so evaluateOnPatch of a default-constructed target is undefined after assignment (C41_assign_refuted); true for targets initialised with the same number of patches and level, and for evaluation on a given element."
  },
  {
   "property": "C42",
   "status": "proved",
   "theorems": [
    "C42_bezier_eval",
    "C42_bezier_positive_weights",
    "C42_jacobian",
    "C42_bezier_jacobian",
    "C42_surface_point",
    "C42_normal",
    "C42_spline_surface",
    "C42_jacobian_is_derivative_refuted"
   ],
   "note": "Bezier patches, patches with inner knots (up to the pruning tolerance; inverse() represented by its specification). Refuted: with inner knots evalJacobian and updateSurfacePoint lack the factor 1/span width (C42_jacobian_is_derivative_refuted)."
  },
  {
   "property": "C43",
   "status": "proved",
   "theorems": [
    "C43_pieces",
    "C43_bezier_unchanged",
    "C43_all_patches"
   ],
   "note": ""
  },
  {
   "property": "C44",
   "status": "proved",
   "theorems": [
    "C44_round_trip",
    "C44_exact",
    "C44_header_without_trailing_blank_refuted"
   ],
   "note": "Bezier patches (the writer asserts that there are no inner knots), sizes within int, file name without newline; control points up to half a unit of the 15th decimal, exact for numbers with 15 decimals. The reader relies on the blank the writer leaves after the header: without it, a well-formed file makes it read beyond its vector (C44_header_without_trailing_blank_refuted)."
  },
  {
   "property": "C45",
   "status": "proved",
   "theorems": [
    "C45_no_item_split",
    "C45_lines_joined",
    "C45_line_width",
    "C45_item_of_full_width_refuted",
    "C45_items_recovered"
   ],
   "note": "the width has to leave room for the separator: an item exactly as long as the width gives a longer line (C45_item_of_full_width_refuted)."
  },
  {
   "property": "C46",
   "status": "proved",
   "theorems": [
    "C46_file_type",
    "C46_any_path_refuted"
   ],
   "note": "refuted as stated: the suffix starts at the first dot, so any other dot in the path makes the type unknown (C46_any_path_refuted); exact characterisation of the accepted names in C46_file_type."
  },
  {
   "property": "C47",
   "status": "proved",
   "theorems": [
    "C47_round_trip",
    "C47_mismatch_reported",
    "C47_missing_file_reported",
    "C47_size_limit"
   ],
   "note": "scalar encodings are a parameter; matrices of 2 GiB and more are outside (int arithmetic, C47_size_limit)."
  },
  {
   "property": "C48",
   "status": "proved",
   "theorems": [
    "C48_run_with_laps",
    "C48_stop_is_total_time",
    "C48_repeated_runs",
    "C48_restart_refuted",
    "C48_stop_is_total_time_refuted"
   ],
   "note": "refuted as stated: start after a run without lap asserts, and stop after laps drops the time since the last lap (C48_restart_refuted, C48_stop_is_total_time_refuted); true statements proved for runs with laps."
  },
  {
   "property": "C49",
   "status": "proved",
   "theorems": [
    "C49_single_layer_symmetric",
    "C49_single_layer_integrand",
    "C49_adjoint",
    "C49_normal_derivative",
    "C49_adjoint_normal_derivative",
    "C49_gradient",
    "C49_potential",
    "C49_harmonic"
   ],
   "note": "exact real arithmetic, including harmonicity and the gradient of the single layer potential"
  },
  {
   "property": "C50",
   "status": "proved",
   "theorems": [
    "C50_potential",
    "C50_schedule_independent",
    "C50_execution_exists"
   ],
   "note": "any refinement history, any number of threads, any interleaving."
  },
  {
   "property": "C51",
   "status": "proved",
   "theorems": [
    "C51_derivative",
    "C51_tensor_partial_x",
    "C51_tensor_partial_y"
   ],
   "note": "At knots themselves only the piece to the right is differentiated (not stated as a theorem)."
  },
  {
   "property": "C52",
   "status": "proved",
   "theorems": [
    "C52_point_list",
    "C52_vertex_counts"
   ],
   "note": "patches fit exactly (the code tolerates 1e-9 at the corners)."
  },
  {
   "property": "C53",
   "status": "proved",
   "theorems": [
    "C53_transfer_exact",
    "C53_transfer_values"
   ],
   "note": "real arithmetic; any one-dimensional quadrature rule for the moments."
  },
  {
   "property": "C54",
   "status": "proved",
   "theorems": [
    "C54_setup",
    "C54_dense_entries",
    "C54_dense_entries_agree",
    "C54_all_dense",
    "C54_lowrank_entries",
    "C54_polynomial_kernel"
   ],
   "note": "uniformly refined meshes; the bilinear form on two elements and the kernel are arbitrary functions; real arithmetic."
  },
  {
   "property": "C55",
   "status": "proved",
   "theorems": [
    "C55_exists",
    "C55_nodes",
    "C55_deterministic",
    "C55_exact",
    "C55_weights",
    "C55_tables"
   ],
   "note": "the eigenvalue solver is represented by its specification, which C55_exists shows to be satisfiable for every number of points; for the tables the points are compared in C55_tables, the weights only through the moments (C37)"
  },
  {
   "property": "C56",
   "status": "proved",
   "theorems": [
    "C56_bilinear_form",
    "C56_mesh",
    "C56_symmetric"
   ],
   "note": "real arithmetic; levels at least 1, consistently oriented patches."
  },
  {
   "property": "C57",
   "status": "proved",
   "theorems": [
    "C57_matrix_invertible",
    "C57_reproduces"
   ],
   "note": "Eigen's inverse() is represented by its specification and pruned() by its documented threshold."
  },
  {
   "property": "C58",
   "status": "proved",
   "theorems": [
    "C58_round_trip_with_slack",
    "C58_exact_with_slack",
    "C58_accuracy_with_slack",
    "C58_writer_out_of_bounds_refuted",
    "C58_empty_geometry_refuted",
    "C58_long_path_refuted"
   ],
   "note": "refuted as stated: writePatchData writes one element behind the end of its knot vectors, so in C++ no non-empty geometry has a defined result (C58_writer_out_of_bounds_refuted); proved for the case that this stray write has no effect (slack = true), for paths of at most 71 characters (C58_long_path_refuted), non-empty geometries (C58_empty_geometry_refuted) and fewer than 10^7 lines. double_to_string is a parameter of which only its accuracy is used."
  },
  {
   "property": "C59",
   "status": "proved",
   "theorems": [
    "C59_single_layer_symmetric",
    "C59_adjoint_kernel",
    "C59_single_layer_integrand",
    "C59_adjoint",
    "C59_normal_derivative",
    "C59_adjoint_normal_derivative",
    "C59_gradient",
    "C59_helmholtz_equation",
    "C59_wavenumber_zero"
   ],
   "note": "exact arithmetic, complex derivatives as derivatives of both parts"
  },
  {
   "property": "C60",
   "status": "proved",
   "theorems": [
    "C60_real",
    "C60_complex",
    "C60_near_far",
    "C60_weights",
    "C60_compressed_error"
   ],
   "note": "complex operators as real and imaginary part (shape functions and moments are real); exact real arithmetic; the interpolation error of the kernel on the two elements is a hypothesis of the error bound"
  },
  {
   "property": "C61",
   "status": "proved",
   "theorems": [
    "C61_evaluator_exists",
    "C61_scalar",
    "C61_vector",
    "C61_divergence",
    "C61_on_patch",
    "C61_constant",
    "C61_linear"
   ],
   "note": "exact real arithmetic; uniform meshes (on locally refined ones element ids restart per level, see C33)"
  },
  {
   "property": "C62",
   "status": "proved",
   "theorems": [
    "C62_linear_form_defined",
    "C62_dirichlet",
    "C62_neumann",
    "C62_tangential",
    "C62_rotated_tangential",
    "C62_mass",
    "C62_laplace_beltrami",
    "C62_gradient_exists",
    "C62_mass_symmetric",
    "C62_mass_positive",
    "C62_beltrami_symmetric_positive",
    "C62_beltrami_constants",
    "C62_dirichlet_exact",
    "C62_mass_exact"
   ],
   "note": "real scalars; exact real arithmetic"
  },
  {
   "property": "C63",
   "status": "proved",
   "theorems": [
    "C63_single_layer",
    "C63_double_layer",
    "C63_gradient_value",
    "C63_single_layer_harmonic",
    "C63_double_layer_harmonic",
    "C63_gradient",
    "C63_helmholtz_single_layer",
    "C63_helmholtz_double_layer",
    "C63_helmholtz_single_layer_equation",
    "C63_helmholtz_double_layer_equation",
    "C63_maxwell_fields",
    "C63_maxwell",
    "C63_maxwell_equation"
   ],
   "note": "exact arithmetic; complex sums for each part; the evaluation points must not be quadrature points"
  },
  {
   "property": "C64",
   "status": "proved",
   "theorems": [
    "C64_contains_all",
    "C64_continuous",
    "C64_evaluator",
    "C64_defined",
    "C64_complete",
    "C64_discontinuous",
    "C64_few_patches"
   ],
   "note": "exact real arithmetic with the solve of C25; meshes with opposed edges (oriented); the space is defined exactly if the clean-up loop finds no gap (C23), in particular on every mesh with few patches at each corner (C64_few_patches)"
  },
  {
   "property": "C65",
   "status": "proved",
   "theorems": [
    "C65_contains_all",
    "C65_interface",
    "C65_inside",
    "C65_defined",
    "C65_conormal"
   ],
   "note": "as C64; element corners excluded because the lower-degree direction may jump there; the evaluator's value is not divided by the surface measure, so the conormal statement is about value/kappa"
  },
  {
   "property": "C66",
   "status": "proved",
   "theorems": [
    "C66_value",
    "C66_harmonic",
    "C66_gradient",
    "C66_degree_zero_refuted"
   ],
   "note": "exact real arithmetic; a normalised vector is exact; the zero vector (division by zero) excluded"
  },
  {
   "property": "C67",
   "status": "proved",
   "theorems": [
    "C67_value",
    "C67_solid",
    "C67_solid_exact",
    "C67_last_term_refuted",
    "C67_top_degree_refuted",
    "C67_gradient",
    "C67_solid_gradient",
    "C67_gradient_degree_two_refuted",
    "C67_gradient_refuted"
   ],
   "note": "exact real arithmetic; the plain claims (all coefficients, degree deg included) are false: C67_last_term_refuted, C67_top_degree_refuted, C67_gradient_refuted, C67_gradient_degree_two_refuted, with the exact value in C67_solid_exact"
  },
  {
   "property": "C68",
   "status": "proved",
   "theorems": [
    "C68_value",
    "C68_even",
    "C68_gradient",
    "C68_laplacian",
    "C68_kernel",
    "C68_kernel_symmetric",
    "C68_kernel_laplacian"
   ],
   "note": "exact real arithmetic; lattice points (division by zero) excluded"
  },
  {
   "property": "C69",
   "status": "proved",
   "theorems": [
    "C69_least_squares",
    "C69_unique",
    "C69_average",
    "C69_deterministic",
    "C69_even",
    "C69_kernel",
    "C69_rule",
    "C69_code",
    "C69_degree"
   ],
   "note": "exact real arithmetic; Eigen's least squares solver and eigenvalue solver are represented by their specifications. The fit uses the terms of degree deg, which the evaluation in the operators leaves out (see C67)"
  },
  {
   "property": "C70",
   "status": "proved",
   "theorems": [
    "C70_element_list",
    "C70_labels_distinct",
    "C70_labels_uniform",
    "C70_identify_patch",
    "C70_boundary_labels",
    "C70_uniform_meshes",
    "C70_label_is_one_refuted",
    "C70_local_refinement_refuted",
    "C70_balls"
   ],
   "note": "exact real arithmetic for the balls; the documented label 1 for patch boundaries and the use after local refinement are refuted: C70_label_is_one_refuted, C70_local_refinement_refuted"
  },
  {
   "property": "C71",
   "status": "proved",
   "theorems": [
    "C71_surface_export",
    "C71_domain_export",
    "C71_point_export",
    "C71_point_export_complex",
    "C71_point_rows_refuted"
   ],
   "note": "files by their content (order of the arrays), not their characters; VTKPointExport does not check the number of rows: C71_point_rows_refuted"
  },
  {
   "property": "C72",
   "status": "proved",
   "theorems": [
    "C72_values",
    "C72_independent",
    "C72_components",
    "C72_copy_default_refuted",
    "C72_copy_moved_refuted",
    "C72_copy_of_a_block_refuted"
   ],
   "note": "memory is never released in the model (a shared pointer is released after its last owner only); copying default constructed trees, moved-from trees and inner blocks is refuted: C72_copy_default_refuted, C72_copy_moved_refuted, C72_copy_of_a_block_refuted"
  },
  {
   "property": "C73",
   "status": "proved",
   "theorems": [
    "C73_statement",
    "C73_in_place_refuted",
    "C73_in_place_sum",
    "C73_defined",
    "C73_get_dense"
   ],
   "note": "real scalars; the semantics of Eigen's assignments (temporaries for default products, none for alias-free ones) is modelled from Eigen's documentation; x = H * x is refuted: C73_in_place_refuted"
  },
  {
   "property": "C74",
   "status": "proved",
   "theorems": [
    "C74_values",
    "C74_change_after_init_refuted",
    "C74_unrefined",
    "C74_reinit_refuted"
   ],
   "note": "mesh and transformation matrix of a new space are arbitrary functions of the geometry, level, degree and repetition in C74_values (no undefined behaviour in their construction); in-place changes after initialisation and re-initialising a refined ClusterTree are refuted: C74_change_after_init_refuted, C74_reinit_refuted; re-initialising a ClusterTree with another number of patches is not modelled"
  },
  {
   "property": "C75",
   "status": "proved",
   "theorems": [
    "C75_value",
    "C75_exact",
    "C75_flat",
    "C75_zero",
    "C75_norm",
    "C75_scaled",
    "C75_div_first_component",
    "C75_order_refuted",
    "C75_div_refuted"
   ],
   "note": "real scalars, exact real arithmetic; uniform meshes; orders above 50 silently use the one-point rule (C75_order_refuted) and only the first component of div-conforming functions is compared (C75_div_refuted)"
  },
  {
   "property": "C76",
   "status": "proved",
   "theorems": [
    "C76_exact",
    "C76_overflow",
    "C76_corners",
    "C76_map2surface",
    "C76_to_reference",
    "C76_global_id",
    "C76_global_id_refuted",
    "C76_reordering",
    "C76_lookup",
    "C76_size_refuted",
    "C76_knots_exact",
    "C76_knots_sorted",
    "C76_projector_points"
   ],
   "note": "infinities and NaN are not modelled (no operation here produces them); the counter of points is not covered; refuted: compute_global_id from level 16 (C76_global_id_refuted), more than 2^31 elements (C76_size_refuted)"
  },
  {
   "property": "C77",
   "status": "proved",
   "theorems": [
    "C77_interpolation_error",
    "C77_stability",
    "C77_kernel_error",
    "C77_compressed_error"
   ],
   "note": "exact real arithmetic; the accuracy of the quadrature itself is not part of the claim"
  },
  {
   "property": "C78",
   "status": "proved",
   "theorems": [
    "C78_double_layer",
    "C78_adjoint_double_layer",
    "C78_single_layer",
    "C78_hypersingular"
   ],
   "note": "exact real arithmetic; flat patches only; for the hypersingular operator the bounds of the tangents and of the shape functions' derivatives are parameters; the bound compares with the quadrature of the exact kernel (with the exact integral: C79)"
  },
  {
   "property": "C79",
   "status": "proved",
   "theorems": [
    "C79_gauss_error",
    "C79_single_layer",
    "C79_double_layer",
    "C79_adjoint_double_layer",
    "C79_disjoint_elements"
   ],
   "note": "exact real arithmetic; flat patches; disjoint elements (the singular pairs are C34-C36); the hypersingular operator is covered by C78 against its quadrature only"
  },
  {
   "property": "C80",
   "status": "proved",
   "theorems": [
    "C80_file",
    "C80_crash",
    "C80_terminal",
    "C80_columns",
    "C80_row_length",
    "C80_machine_readable",
    "C80_append_refuted",
    "C80_same_name_refuted",
    "C80_terminal_history_refuted",
    "C80_empty_separator_refuted"
   ],
   "note": "values are modelled by the text operator<< prints for a precision; errors of the file system (open fails, disk full) are not modelled"
  },
  {
   "property": "C81",
   "status": "proved",
   "theorems": [
    "C81_check",
    "C81_normals_ignored",
    "C81_accepts",
    "C81_origin_refuted",
    "C81_orientation_refuted",
    "C81_gap_refuted"
   ],
   "note": "exact real arithmetic; assertions are modelled as enabled (with NDEBUG the function does nothing)"
  },
  {
   "property": "C82",
   "status": "proved",
   "theorems": [
    "C82_flux_exists",
    "C82_gauss",
    "C82_closed",
    "C82_integral"
   ],
   "note": "exact real arithmetic; the divergence is the one evaluateDiv returns (derivatives in the parameter domain); C65 relates the fluxes to the conormal directions on the surface"
  },
  {
   "property": "C83",
   "status": "proved",
   "theorems": [
    "C83_constant",
    "C83_nearly_constant",
    "C83_load_sum",
    "C83_mass_sum",
    "C83_constant_is_solution",
    "C83_beltrami_rows"
   ],
   "note": "exact real arithmetic; for degrees above 4 only the error bound, on the half-open unit square"
  },
  {
   "property": "C84",
   "status": "proved",
   "theorems": [
    "C84_discontinuous",
    "C84_continuous",
    "C84_continuous_closed",
    "C84_div",
    "C84_div_closed",
    "C84_pinched_refuted"
   ],
   "note": "continuous spaces: whenever the space can be built at all (C23 gives the meshes for which the clean-up fails); without connected vertex fans the formula is false (C84_pinched_refuted)"
  },
  {
   "property": "C85",
   "status": "proved",
   "theorems": [
    "C85_entries",
    "C85_product",
    "C85_definite",
    "C85_unique",
    "C85_single_layer",
    "C85_double_layers",
    "C85_distance",
    "C85_converges"
   ],
   "note": "exact real arithmetic, flat patches, Laplace operators without the hypersingular one; delta bounds the difference of two quadrature rules in the far field, where C79 bounds each against the exact integral"
  },
  {
   "property": "C86",
   "status": "proved",
   "theorems": [
    "C86_beltrami_kernel",
    "C86_beltrami_solvable",
    "C86_scalar",
    "C86_mass_definite",
    "C86_mass_solvable",
    "C86_projection",
    "C86_reproduces",
    "C86_div",
    "C86_rules"
   ],
   "note": "exact real arithmetic; degrees up to 4 (above, the interpolation of the projector is inexact); positive definiteness is for the quadrature rules, which for curved surfaces are not exact integrals"
  },
  {
   "property": "C87",
   "status": "proved",
   "theorems": [
    "C87_mesh",
    "C87_full",
    "C87_compressed",
    "C87_local",
    "C87_scalar_traces",
    "C87_vector_traces",
    "C87_potentials",
    "C87_gradient_potential",
    "C87_maxwell_potential",
    "C87_surface_error",
    "C87_div_error_refuted"
   ],
   "note": "exact real arithmetic: in floating point the moved corners differ by rounding; C87_div_error_refuted shows the dependence of the L2 error of div-conforming functions on the position"
  },
  {
   "property": "C88",
   "status": "proved",
   "theorems": [
    "C88_mesh",
    "C88_mesh_exists",
    "C88_entries",
    "C88_form_transpose",
    "C88_full_exists",
    "C88_full",
    "C88_full_unique",
    "C88_transpose",
    "C88_symmetric",
    "C88_decompositions",
    "C88_library_rule",
    "C88_moment_rule",
    "C88_library_converges",
    "C88_compressed_exists",
    "C88_compressed_converges"
   ],
   "note": "exact real arithmetic; the matrix is defined where all quadrature degrees are below 50 (the others give forms the code does not compute); transposition from level 1 on, since on level 0 two patches may share two corners that are not an edge; convergence for flat patches, without the hypersingular operator (C89); C88_library_converges takes the tables for up to 20 points as the Gauss rules they are within rounding (C37, C55_tables)"
  },
  {
   "property": "C89",
   "status": "proved",
   "theorems": [
    "C89_curl",
    "C89_disjoint_elements",
    "C89_far_entry",
    "C89_galerkin",
    "C89_entries",
    "C89_converges",
    "C89_compressed_converges",
    "C89_library_converges"
   ],
   "note": "exact real arithmetic; flat patches; singular pairs (common vertex, edge, equal elements) are C34-C36; the far-field error term is that of the quadrature of the full matrix, which the compressed one does not share"
  },
  {
   "property": "C90",
   "status": "proved",
   "theorems": [
    "C90_mesh",
    "C90_admissibility",
    "C90_operators",
    "C90_position",
    "C90_entries",
    "C90_full",
    "C90_local",
    "C90_scalar_traces",
    "C90_vector_traces",
    "C90_surface_error",
    "C90_laplace_potentials",
    "C90_complex_potentials",
    "C90_corners",
    "C90_corners_refuted",
    "C90_degree_refuted",
    "C90_compressed",
    "C90_product",
    "C90_compressed_exists"
   ],
   "note": "exact real arithmetic; the entries are compared where both degrees of quadrature are in range and their rules agree (the degree itself depends on the unit: C90_degree_refuted); corners must be identified alike (C90_corners gives a sufficient condition, C90_corners_refuted a mesh that collapses)"
  },
  {
   "property": "C91",
   "status": "proved",
   "theorems": [
    "C91_mesh",
    "C91_position",
    "C91_library",
    "C91_operators",
    "C91_entries",
    "C91_full",
    "C91_compressed",
    "C91_product",
    "C91_compressed_exists",
    "C91_local",
    "C91_scalar_traces",
    "C91_vector_traces",
    "C91_potentials",
    "C91_maxwell_potential",
    "C91_surface_error"
   ],
   "note": "exact real arithmetic; the exact mirror image of every point of the surface, not that of rounded control points"
  },
  {
   "property": "C92",
   "status": "proved",
   "theorems": [
    "C92_operators",
    "C92_entries",
    "C92_full",
    "C92_compressed",
    "C92_product",
    "C92_compressed_exists",
    "C92_imaginary_wave",
    "C92_zero_potentials",
    "C92_conjugate_potentials"
   ],
   "note": "exact real and complex arithmetic"
  },
  {
   "property": "C93",
   "status": "proved",
   "theorems": [
    "C93_local",
    "C93_full",
    "C93_space"
   ],
   "note": "exact real arithmetic; the dense matrix (the compressed one interpolates the kernel with the moments of the derivatives and is not part of the claim)"
  }
 ]
}
