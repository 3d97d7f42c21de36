{
 "claims": [
  {
   "property": "C01",
   "status": "partial",
   "theorems": [
    "C01_time_and_cycle_forward_backward",
    "C01_no_reverse_before_start",
    "C01_C02_history_refines_notebook_partial",
    "C01_rerun_same_steps",
    "C01_one_step_per_cycle",
    "C01_backward_interval",
    "C01_arbitrary_interleaving_refuted"
   ],
   "note": "Full history refinement proved for histories in which forward steps are taken at the last recorded cycle; arbitrary interleavings refuted (a forward step after a backward step does not record its dt)."
  },
  {
   "property": "C02",
   "status": "partial",
   "theorems": [
    "C01_C02_history_refines_notebook_partial",
    "C02_checkpoint_after_rerun_refuted",
    "C02_out_of_range_query_refuted",
    "C02_quasistatic_velocity_refuted"
   ],
   "note": "Proved for start cycle 0, in-memory mode, frontier discipline. Refuted: re-run without reset, unchecked cycle argument, quasi-static velocity."
  },
  {
   "property": "C03",
   "status": "partial",
   "theorems": [
    "C03_disk_agrees_on_current_cycle_partial",
    "C03_disk_query_refuted",
    "C03_disk_get_states_effect_refuted",
    "C03_disk_reverse_keeps_fields_refuted",
    "C03_C05_disk_cache_after_reset_refuted"
   ],
   "note": "Agreement proved when each query asks for the current cycle; refuted otherwise: the disk branch returns copies of the current states and overwrites the current states."
  },
  {
   "property": "C04",
   "status": "partial",
   "theorems": [
    "C04_forward_clock_any_start_partial",
    "C04_restart_cycle_refuted"
   ],
   "note": "Clock proved for every start cycle; checkpoints and backward steps refuted for start cycle > 0."
  },
  {
   "property": "C05",
   "status": "partial",
   "theorems": [
    "C03_C05_disk_cache_after_reset_refuted",
    "C05_reset_forgets_partial",
    "C05_integrator_memory_refuted"
   ],
   "note": "In-memory bookkeeping proved; refuted for the disk cache. Also refuted for the second-order integrator, which keeps its last acceleration across a reset."
  },
  {
   "property": "C06",
   "status": "proved",
   "theorems": [
    "C06_remove_after_add",
    "C06_no_collision",
    "C06_parameter_lookup",
    "C06_unknown_parameter_refused",
    "C06_parameter_names"
   ],
   "note": ""
  },
  {
   "property": "C07",
   "status": "partial",
   "theorems": [
    "C07_nested_set_expressions",
    "C07_result_kind_refuted",
    "C07_union_has_no_dofs_refuted"
   ],
   "note": "Element sets proved for every nested expression; refuted: result kind and projection dofs are lost."
  },
  {
   "property": "C08",
   "status": "partial",
   "theorems": [
    "C08_elements",
    "C08_boundary_elements",
    "C08_faces",
    "C08_vertices",
    "C08_element_dofs",
    "C08_boundary_dofs",
    "C08_edges_partial",
    "C08_edges_refuted",
    "C08_edge_dofs_refuted",
    "C08_entire_domain",
    "C08_entire_boundary"
   ],
   "note": "Elements, boundary elements, faces, vertices and entire domains proved; edges proved except boundary element 0, refuted there; projection on edge domains refuted."
  },
  {
   "property": "C09",
   "status": "partial",
   "theorems": [
    "C09_reported_dofs",
    "C09_nothing_dropped_partial",
    "C09_second_component_refuted",
    "C09_last_condition_decides",
    "C09_other_dofs_untouched",
    "C09_by_position"
   ],
   "note": "Reported dofs proved for every history; nothing dropped when attributes are distinct; refuted for a second component on the same attribute."
  },
  {
   "property": "C10",
   "status": "partial",
   "theorems": [
    "C10_record_round_trip_partial",
    "C10_sign_refuted",
    "C10_index_with_orientation_refuted",
    "C10_vector_dofs_bijection",
    "C10_vector_dof_formula",
    "C10_reversed_dof_refuted"
   ],
   "note": "Vector-dof bijection proved; records proved exactly for sign 0 and orientation 0; refuted otherwise (mask/shift mistakes in the packing)."
  },
  {
   "property": "C11",
   "status": "proved",
   "theorems": [
    "C11_triangle",
    "C11_tetrahedron",
    "C11_square",
    "C11_cube",
    "C11_triangle_sides",
    "C11_square_sides",
    "C11_tetrahedron_faces",
    "C11_cube_faces",
    "C11_segment_permutations",
    "C11_triangle_permutations",
    "C11_square_permutations",
    "C11_triangle_orientation",
    "C11_square_orientation"
   ],
   "note": "All four node numbering formulas, side/face node lists and orientation permutations proved for every degree."
  },
  {
   "property": "C12",
   "status": "partial",
   "theorems": [
    "C12_scatter_is_transpose_of_gather",
    "C12_gather_entries",
    "C12_scatter_entries",
    "C12_ids_in_range",
    "C12_ids_are_vector_dofs",
    "C12_blocks_adjoint",
    "C12_block_offsets",
    "C12_block_esize_refuted",
    "C12_hcurl_gather_refuted"
   ],
   "note": "Adjointness proved for any table with in-range ids, which plain tables have; refuted: H(curl) reversed dofs and the reported size on mixed meshes."
  },
  {
   "property": "C13",
   "status": "partial",
   "theorems": [
    "C13_table_for_mesh",
    "C13_valid_when_last_row_coupled",
    "C13_trailing_row_refuted",
    "C13_no_entries_refuted"
   ],
   "note": "Proved for every mesh in which each test dof is coupled by an element (enough: the last one); refuted for trailing uncoupled rows and for a process without elements."
  },
  {
   "property": "C14",
   "status": "proved",
   "theorems": [
    "C14_assembled_is_action",
    "C14_true_dofs",
    "C14_quantity_of_interest"
   ],
   "note": "Proved for plain dof tables (H1, L2), any integrals, local and true dofs, and for quantities of interest. H(curl) excluded by the C10/C12 refutations."
  },
  {
   "property": "C15",
   "status": "partial",
   "theorems": [
    "C15_exact_derivative_partial",
    "C15_seeded_inputs_partial",
    "C15_max_min_right_when_differentiable",
    "C15_abs_right_when_differentiable",
    "C15_pow_zero_exponent_refuted",
    "C15_pow_zero_base_refuted"
   ],
   "note": "All overloads and all expressions, any number of gradient components, over the reals. Refuted corners: pow(x, 0.0) at x = 0 and pow(0.0, y) give NaN although differentiable."
  },
  {
   "property": "C16",
   "status": "partial",
   "theorems": [
    "C16_gradient_is_derivative",
    "C16_value_independent_of_differentiation",
    "C16_held_gradient_refuted",
    "C16_repeated_argument_refuted",
    "C16_qoi_value_overwritten_refuted",
    "C16_all_arguments"
   ],
   "note": "Proved for all histories, given that dual-number evaluation returns the derivative of the integrand (C15). Refuted: gradients held across a second differentiated evaluation, integrals naming one argument twice, quantity-of-interest values after applying the gradient. C82 proves that dual-number evaluation returns these derivatives for integrands written with the overloads."
  },
  {
   "property": "C17",
   "status": "proved",
   "theorems": [
    "C17_no_update_no_change",
    "C17_trial_evaluations_invisible",
    "C17_update_stores_material_output",
    "C17_other_points_untouched"
   ],
   "note": "Proved for all histories; state is kept per integral here. C80 refines this to the flat buffers of the code and covers a buffer shared by two integrals."
  },
  {
   "property": "C18",
   "status": "proved",
   "theorems": [
    "C18_inverse2",
    "C18_inverse3",
    "C18_singular2",
    "C18_singular3",
    "C18_det_multiplicative",
    "C18_det_identity_and_transpose",
    "C18_detApIm1",
    "C18_dual_inverse2",
    "C18_dual_inverse3"
   ],
   "note": "2x2 and 3x3 over the reals, singular matrices included; also the gradient rule of inv on dual matrices."
  },
  {
   "property": "C19",
   "status": "partial",
   "theorems": [
    "C19_answer_solves_partial",
    "C19_every_invertible_2x2",
    "C19_every_dominant_matrix_partial",
    "C19_some_invertible_3x3_refuted",
    "C19_positive_definite_refuted",
    "C19_answers_exactly",
    "C19_any_right_hand_side",
    "C19_inverse_by_columns_partial",
    "C19_dual_solution_partial"
   ],
   "note": "Any size: an answer is the unique solution, duals included; an answer is produced exactly when every leading block of the reordered matrix is regular. Answers proved for all invertible 2x2 and all strictly column dominant matrices. Refuted as stated: an invertible 3x3 matrix, even a symmetric positive definite one, on which the elimination divides by zero (rows are ordered before elimination starts)."
  },
  {
   "property": "C20",
   "status": "proved",
   "theorems": [
    "C20_sym_antisym",
    "C20_sym_antisym_orthogonal",
    "C20_dev_spherical",
    "C20_isotropic_rank4",
    "C20_isotropic_rank2",
    "C20_isotropic_rank3"
   ],
   "note": "Any dimension; isotropic rank 2, 3 and 4."
  },
  {
   "property": "C21",
   "status": "partial",
   "theorems": [
    "C21_refuses_iff_no_sign_change",
    "C21_answer_in_interval",
    "C21_root_bracketed",
    "C21_converged_means_tolerance_met",
    "C21_distance_to_root",
    "C21_enough_iterations_converge",
    "C21_enough_iterations_converge_residual",
    "C21_root_derivative",
    "C21_nan_only_at_flat_roots_partial",
    "C21_point_of_interval_refuted"
   ],
   "note": "All functions, guesses, intervals and options over the reals; convergence given enough iterations also proved. Refuted: NaN when an iterate is a root with zero slope (x^3 from 0)."
  },
  {
   "property": "C22",
   "status": "proved",
   "theorems": [
    "C22_linear_energy",
    "C22_stvk_energy",
    "C22_neo_energy",
    "C22_thermoelastic_energy",
    "C22_thermoelastic_entropy",
    "C22_thermoelastic_source",
    "C22_thermoelastic_flux",
    "C22_linear_zero",
    "C22_stvk_zero",
    "C22_neo_zero",
    "C22_thermoelastic_zero",
    "C22_linear_symmetric",
    "C22_stvk_symmetric",
    "C22_neo_symmetric",
    "C22_thermoelastic_symmetric",
    "C22_stvk_objective",
    "C22_neo_objective",
    "C22_thermoelastic_objective",
    "C22_stvk_isotropic",
    "C22_neo_isotropic",
    "C22_neo_defined"
   ],
   "note": "All four elastic models over the reals, dimension 2 and 3: energy, zero state, symmetry, objectivity, isotropy; also the thermal part of the thermoelastic model."
  },
  {
   "property": "C23",
   "status": "partial",
   "theorems": [
    "C23_linear_law",
    "C23_power_law",
    "C23_voce_law",
    "C23_material_from_law",
    "C23_always_returns",
    "C23_elastic",
    "C23_state",
    "C23_dissipation",
    "C23_on_surface_partial",
    "C23_repeat_partial",
    "C23_linear_converges",
    "C23_on_surface_refuted"
   ],
   "note": "All laws, states and displacement gradients over the reals: returning, elastic step, invariants, dissipation. Yield surface and repeated call proved when the scalar solve converged, which is proved for linear hardening; refuted for a law with a jump (25 iterations, ignored status)."
  },
  {
   "property": "C24",
   "status": "partial",
   "theorems": [
    "C24_newmark_direct",
    "C24_newmark_rate",
    "C24_run_rate",
    "C24_run_direct",
    "C24_start",
    "C24_rate_quadratic",
    "C24_newmark_full_partial",
    "C24_full_control_refuted",
    "C24_central_difference_direct_refuted"
   ],
   "note": "All problems, solvers meeting their contract (exact solve), states and steps, any number of steps; DirectControl and RateControl proved. Refuted: FullControl overwrites the first entries instead of the constrained ones; central differences with DirectControl divide by zero. MFEM's Newmark step is modelled from its documentation."
  },
  {
   "property": "C25",
   "status": "partial",
   "theorems": [
    "C25_gradient_partial",
    "C25_velocity_objective_refuted",
    "C25_first_step_refuted"
   ],
   "note": "Any number of steps after the zero-length first step, objectives of displacement and acceleration. Refuted for objectives of velocity and without a zero-length first step."
  },
  {
   "property": "C26",
   "status": "partial",
   "theorems": [
    "C26_gradient",
    "C26_stale_load_refuted",
    "C26_rate_control_refuted"
   ],
   "note": "Any number of steps, residuals and objectives of temperature and rate, DirectControl fully, RateControl for initial temperatures fixed on constrained dofs. Capacity matrix symmetric. Refuted: stale rate load; RateControl initial temperature of constrained dofs."
  },
  {
   "property": "C27",
   "status": "proved",
   "theorems": [
    "C27_adjoint_equations",
    "C27_gradient",
    "C27_reactions"
   ],
   "note": "All residuals, objectives and families of equilibria, exact linear solves; also reactions."
  },
  {
   "property": "C28",
   "status": "partial",
   "theorems": [
    "C28_newton_converged",
    "C28_newton_failed",
    "C28_newton_limits",
    "C28_flag",
    "C28_nan_flag_refuted",
    "C28_first_throw_refuted",
    "C28_trust_region_converged",
    "C28_trust_region_limits"
   ],
   "note": "All operators, including throwing ones, over the reals; Newton and trust region. Refuted: stale converged flag after NaN; a throw at the first evaluation turns the goal into rel_tol times the largest double. A trust-region step that divides by zero is left undefined (see C30)."
  },
  {
   "property": "C29",
   "status": "proved",
   "theorems": [
    "C29_line_search",
    "C29_affine_one_step"
   ],
   "note": "All residual operators, directions and limits over the reals."
  },
  {
   "property": "C30",
   "status": "partial",
   "theorems": [
    "C30_boundary_norm",
    "C30_boundary_between_norm",
    "C30_dogleg",
    "C30_cg",
    "C30_cg_defined",
    "C30_cg_decreases",
    "C30_proposal",
    "C30_outer_iteration",
    "C30_zero_model_refuted",
    "C30_minimum_iterations_refuted"
   ],
   "note": "All operators, radii and limits; totality for positive definite preconditioners and no minimum iteration count. Refuted: ratio test with a vanishing model objective; 0/0 with min_iterations >= 2. A step that meets the residual goal is accepted without looking at the work estimate."
  },
  {
   "property": "C31",
   "status": "partial",
   "theorems": [
    "C31_merge",
    "C31_split",
    "C31_roundtrip",
    "C31_zeroing",
    "C31_rank_offsets",
    "C31_inactive",
    "C31_identity_block_partial",
    "C31_identity_block_refuted",
    "C31_stale_offsets_refuted",
    "C31_tied_fixed_partial",
    "C31_tied_markers_refuted",
    "C31_tied_always_undefined"
   ],
   "note": "Merging, splitting, round trip, rank offsets and the active-set rule proved for every reachable state. The inactive identity block is proved only when all interactions use multipliers; refuted with mixed enforcement, with stale offsets, and the tied constructor reads uninitialised markers. Tribol itself, BooleanMult and the penalty stiffness block are not modelled."
  },
  {
   "property": "C32",
   "status": "proved",
   "theorems": [
    "C32_segment",
    "C32_triangle",
    "C32_tetrahedron",
    "C32_square",
    "C32_cube"
   ],
   "note": "All tabulated segment (1-8 points), triangle (1-5) and tetrahedron (1-6) rules, and the quad/hex tensor products; error bound 1e-14 times the sum of coefficient magnitudes in exact real arithmetic of the decimal constants. The integral is an iterated Riemann integral."
  },
  {
   "property": "C33",
   "status": "proved",
   "theorems": [
    "C33_segment",
    "C33_quad",
    "C33_hex",
    "C33_triangle",
    "C33_tetrahedron",
    "C33_high_order_vanishes"
   ],
   "note": "All five H1 elements at orders 1-3, over the reals with the constant sqrt5 taken exactly (the code has a 17-digit decimal). Nodes for simplices are those of the unit tests. Outside orders 1-3 simplex shape functions vanish identically (C33_high_order_vanishes)."
  },
  {
   "property": "C34",
   "status": "proved",
   "theorems": [
    "C34_quad_interpolate",
    "C34_hex_interpolate",
    "C34_segment_interpolate",
    "C34_quad_integrate",
    "C34_hex_integrate",
    "C34_segment_integrate",
    "C34_simplex_integrate",
    "C34_accumulate",
    "C34_quad_transpose",
    "C34_hex_transpose",
    "C34_segment_transpose",
    "C34_simplex_transpose",
    "C34_qoi"
   ],
   "note": "Any 1D rule, orders 0-3, any number of components and trial columns, with the shape functions and rules of C33 and C32; also segments, simplices and quantities of interest. Hcurl elements are not modelled."
  },
  {
   "property": "C35",
   "status": "partial",
   "theorems": [
    "C35_point",
    "C35_element_partial",
    "C35_curl",
    "C35_curl_refuted",
    "C35_boundary",
    "C35_surface_measure"
   ],
   "note": "Kernel, wrapper and element level, any integrand and quadrature data. Missing: H(curl) arguments in 3D, where the code is wrong (refuted, exact factor given); assembly over elements is C12/C14."
  },
  {
   "property": "C36",
   "status": "partial",
   "theorems": [
    "C36_lookup",
    "C36_used_name",
    "C36_store",
    "C36_update",
    "C36_frame",
    "C36_restore_state",
    "C36_restore_dual",
    "C36_progress",
    "C36_checkpointed",
    "C36_shape_displacement_refuted",
    "C36_state_dual_alias_refuted",
    "C36_mesh_after_load_refuted",
    "C36_new_name_after_load_refuted",
    "C36_mesh_twice_refuted",
    "C36_store_keeps_values_refuted"
   ],
   "note": "Names, lookup, frame and save/reload proved for every history of calls. Refuted as stated for the shape displacement (zeroed on reload), for a state and a dual of one name after a load, for new meshes or fields after a load, for a repeated mesh tag, and because storing a state discards the values it holds. Sidre input/output is modelled as an exact copy of the fields."
  },
  {
   "property": "C37",
   "status": "partial",
   "theorems": [
    "C37_state_construct",
    "C37_dual_construct",
    "C37_vector_move_assign",
    "C37_assign_partial",
    "C37_assign_checks",
    "C37_assign_name_refuted",
    "C37_dual_move_assign_refuted",
    "C37_dual_form_refuted",
    "C37_swap_states_refuted",
    "C37_swap_duals_refuted",
    "C37_vector_size_refuted"
   ],
   "note": "Copy and move construction of states and duals are proved in full. Assignments carry values and space but keep the name (refuted); move assignment of a dual copies no values, a move-constructed dual keeps a linear form on the space of its source, swapping states is undefined, and plain vector assignment does not check the size (all refuted)."
  },
  {
   "property": "C38",
   "status": "partial",
   "theorems": [
    "C38_access",
    "C38_life_partial",
    "C38_plain",
    "C38_switch_refuted",
    "C38_switch_memory",
    "C38_frees_foreign_refuted",
    "C38_coefficient_released_twice_refuted",
    "C38_select"
   ],
   "note": "Proved for every history that never assigns an owning alternative while the other is held; that switch assigns to a dead member and releases the old word (refuted, strictly and at the memory level)."
  },
  {
   "property": "C39",
   "status": "partial",
   "theorems": [
    "C39_exactly_one",
    "C39_constant",
    "C39_function",
    "C39_vector_constant",
    "C39_vector_function",
    "C39_piecewise_partial",
    "C39_largest",
    "C39_vector_piecewise_partial",
    "C39_nonpositive_attribute_refuted",
    "C39_short_vector_refuted",
    "C39_vector_gap_refuted",
    "C39_above_largest_refuted",
    "C39_kinds"
   ],
   "note": "Exactly-one and all coefficient kinds proved; piecewise maps need positive attributes and equal vector lengths, which input does not check (refuted)."
  },
  {
   "property": "C40",
   "status": "partial",
   "theorems": [
    "C40_voce",
    "C40_power_law_partial",
    "C40_power_law_refuted",
    "C40_j2",
    "C40_elastic_partial",
    "C40_elastic_refuted",
    "C40_linear_hardening_refuted",
    "C40_isotropic_conductor",
    "C40_conductor",
    "C40_build_solid",
    "C40_build_thermal"
   ],
   "note": "Iff proved for Voce, J2 and the two conductors; power law does not reject strain_constant and the elastic models do not reject Hk (refuted); linear hardening is never accepted (refuted). Accepted tables build the material they name."
  },
  {
   "property": "C41",
   "status": "partial",
   "theorems": [
    "C41_conductor_partial",
    "C41_temperature_dependent_conductor",
    "C41_conductor_refuted",
    "C41_linear_3d_partial",
    "C41_neo_3d_partial",
    "C41_thermoelastic",
    "C41_thermoelastic_scaled",
    "C41_linear_2d_refuted",
    "C41_j2"
   ],
   "note": "Every parameter value: equal in three dimensions (linear, neo-Hookean, thermoelastic, temperature dependent conductor), J2 equal to the Voce model without kinematic hardening, isotropic conductor equal when the sum is accepted. Refuted in two dimensions (different Lame constant) and for the isotropic conductor with a negative sum."
  },
  {
   "property": "C42",
   "status": "partial",
   "theorems": [
    "C42_flux_is_piola",
    "C42_flux_linear",
    "C42_conversions_agree_partial",
    "C42_conversions_agree_refuted"
   ],
   "note": "Residual flux proved; conversions agree for symmetric stress; refuted for a nonsymmetric stress (KirchhoffToPiola transposes)."
  },
  {
   "property": "C43",
   "status": "partial",
   "theorems": [
    "C43_squish_norm",
    "C43_squish_into",
    "C43_squish_onto_partial",
    "C43_squish_one_to_one_partial",
    "C43_squish_center",
    "C43_disk",
    "C43_ball",
    "C43_coarse",
    "C43_counts",
    "C43_full_ring",
    "C43_open_ring_partial",
    "C43_open_ring_refuted",
    "C43_connectivity",
    "C43_corners",
    "C43_distinct",
    "C43_neighbours",
    "C43_closes",
    "C43_boundary_orientation",
    "C43_open_ends_refuted",
    "C43_one_sector_refuted",
    "C43_cylinder",
    "C43_quarter_cylinder"
   ],
   "note": "Disk, ball, ring, cylinder and quarter cylinder generators over exact reals; refinement is modelled as taking midpoints. Missing: open rings whose sector angle does not divide the full turn (refuted: vertices leave their circle), the straight ends of open rings (refuted: no boundary elements), one-sector full rings (refuted: degenerate), points within 1e-6 of the centre, the disk interior map for cylinders."
  },
  {
   "property": "C44",
   "status": "partial",
   "theorems": [
    "C44_powers",
    "C44_chebyshev_first",
    "C44_chebyshev_second",
    "C44_legendre",
    "C44_bernstein_partial",
    "C44_bernstein_refuted"
   ],
   "note": "All n for powers, Chebyshev and Legendre; Bernstein up to 13 entries, after which the int factorial overflows (refuted)."
  },
  {
   "property": "C45",
   "status": "proved",
   "theorems": [
    "C45_one_condition",
    "C45_all_conditions",
    "C45_newton",
    "C45_warm_start",
    "C45_without_warm_start"
   ],
   "note": "All matrices, sets and values; any list of conditions. MFEM EliminateRowsCols/EliminateBC modelled from their documentation."
  },
  {
   "property": "C46",
   "status": "partial",
   "theorems": [
    "C46_exact_clock_partial",
    "C46_clock_refuted",
    "C46_forward_euler_clock_refuted"
   ],
   "note": "Clock exact for quasi-static, dynamic and first-order integrators that advance by dt (partial); refuted for integrators that do not move the clock of the module."
  },
  {
   "property": "C47",
   "status": "partial",
   "theorems": [
    "C47_neo_small_strain",
    "C47_stvk_small_strain",
    "C47_stvk_3d_partial",
    "C47_stvk_2d_refuted"
   ],
   "note": "Neo-Hookean proved in 2D and 3D, St. Venant-Kirchhoff in 3D; refuted in 2D, where its deviator uses trace/2."
  },
  {
   "property": "C48",
   "status": "partial",
   "theorems": [
    "C48_second_order",
    "C48_first_order",
    "C48_full_control_refuted"
   ],
   "note": "DirectControl and RateControl proved for both orders. Refuted: first-order FullControl does not give the prescribed value at the end of the step."
  },
  {
   "property": "C49",
   "status": "partial",
   "theorems": [
    "C49_history_refuted",
    "C49_tension_refuted",
    "C49_settles_partial",
    "C49_no_tension_partial"
   ],
   "note": "Refuted as stated: the active set used by setPressures comes from the previous pressures. Proved: a repeated evaluation is stable from the second one on, and then no penalty pressure is tensile. Gaps are taken to be a function of displacement."
  },
  {
   "property": "C50",
   "status": "proved",
   "theorems": [
    "C50_average",
    "C50_maximum",
    "C50_minimum",
    "C50_inner_product"
   ],
   "note": "Proved for every partition. Integer overflow of the summed sizes is not modelled; an empty vector has no maximum."
  },
  {
   "property": "C51",
   "status": "partial",
   "theorems": [
    "C51_isotropic",
    "C51_isotropic_accepts",
    "C51_temperature_dependent",
    "C51_accepts_positive",
    "C51_conductor2_partial",
    "C51_conductor3_partial",
    "C51_conductor2_refuted",
    "C51_conductor3_refuted",
    "C51_fourier"
   ],
   "note": "Isotropic and temperature-dependent conductors proved. Tensor conductors proved when leading minors are strictly positive; the Sylvester test uses < 0 and accepts diag(0,-1) (refuted)."
  },
  {
   "property": "C52",
   "status": "partial",
   "theorems": [
    "C52_factors_partial",
    "C52_simplex_refuted"
   ],
   "note": "Missing: quadratic and cubic triangles and tetrahedra as domain elements, for which the code reads uninitialised arrays (refuted)."
  },
  {
   "property": "C53",
   "status": "partial",
   "theorems": [
    "C53_stops",
    "C53_steps",
    "C53_never_past_the_end",
    "C53_number_of_steps",
    "C53_outputs_partial",
    "C53_restart",
    "C53_restart_at_end_refuted",
    "C53_nonpositive_dt_refuted",
    "C53_module",
    "C53_module_exists"
   ],
   "note": "For every positive dt and start before t_final; the clock agreement needs an integrator whose clock moves by dt (see C46). Refuted: dt <= 0 is accepted and the loop never ends; a restart at or after t_final takes a step of zero or negative length."
  },
  {
   "property": "C54",
   "status": "partial",
   "theorems": [
    "C54_staggered_partial",
    "C54_clocks_partial",
    "C54_restart_refuted",
    "C54_reset_repeats",
    "C54_names",
    "C54_set_state",
    "C54_checkpoints_refuted",
    "C54_user_parameters_refuted",
    "C54_solid_material",
    "C54_heat_source_refuted",
    "C54_input_refuted"
   ],
   "note": "Partial: the staggered scheme and the agreement of clocks hold for runs started at cycle 0 and time 0 with integrators that move the clock by dt. Refuted: after a restart the coupled module counts from 0; no checkpoint or time step of the coupled module can be retrieved; user parameters are refused; the heat source of the material is dropped; only the solver options of the input file are used."
  },
  {
   "property": "C55",
   "status": "partial",
   "theorems": [
    "C55_heat_conditions",
    "C55_heat_any_order",
    "C55_heat_first_by_name",
    "C55_heat_accepted",
    "C55_heat_component_refuted",
    "C55_solid_conditions",
    "C55_solid_accepted",
    "C55_solid_defined",
    "C55_solid_any_order_partial",
    "C55_solid_any_order_refuted",
    "C55_heat_materials_partial",
    "C55_heat_material_refuted",
    "C55_solid_materials",
    "C55_initial_checkpoint_refuted",
    "C55_initial_by_set_state",
    "C55_heat_integrator",
    "C55_solid_integrator"
   ],
   "note": "Partial: thermal conditions are order independent and resolved by name. Refuted: solid conditions with a repeated attribute depend on hash order; a temperature condition without component dereferences an empty optional; a conductor of the wrong dimension is silently dropped; checkpoint 0 keeps the zero field when the initial condition comes from the input file."
  },
  {
   "property": "C56",
   "status": "partial",
   "theorems": [
    "C56_built_partial",
    "C56_as_requested",
    "C56_no_preconditioner_refuted",
    "C56_preconditioner_print_refuted",
    "C56_iterative_input",
    "C56_linear_type",
    "C56_nonlinear_input",
    "C56_input_builds",
    "C56_input_defined",
    "C56_documented_names_refuted",
    "C56_reachable_from_input_refuted",
    "C56_solve",
    "C56_monolithic",
    "C56_monolithic_accepts"
   ],
   "note": "Partial: every combination with a preconditioner. Refuted: Preconditioner::None dereferences a null pointer when the solver is built; preconditioner_print_level is ignored; the documented names minres and AMG are refused; most solvers cannot be reached from an input file. HypreParMatrixFromBlocks is modelled as block assembly."
  },
  {
   "property": "C57",
   "status": "proved",
   "theorems": [
    "C57_virtual_work",
    "C57_conjugate",
    "C57_total",
    "C57_momentum",
    "C57_stresses_balance",
    "C57_angular_momentum",
    "C57_heat",
    "C57_area_vector",
    "C57_solid_power",
    "C57_solid_power_defined",
    "C57_heat_power",
    "C57_heat_power_defined",
    "C57_conduction_dissipates"
   ],
   "note": "WeakForm*.v. Real arithmetic, local (L-vector) residual, displacement and temperature in H1, no shape displacement (C35 reduces it to a moved mesh). Partition of unity and the isoparametric position are hypotheses here; C33 proves the first for the shape functions of the code."
  },
  {
   "property": "C58",
   "status": "partial",
   "theorems": [
    "C58_orthonormal",
    "C58_distinct_partial",
    "C58_close_partial",
    "C58_repeated",
    "C58_refuted",
    "C58_function",
    "C58_exp_det",
    "C58_log",
    "C58_exp_log",
    "C58_log_exp",
    "C58_sqrt",
    "C58_exp_derivative",
    "C58_log_derivative",
    "C58_sqrt_derivative"
   ],
   "note": "Proved for every symmetric matrix: no NaN, orthogonal columns, ascending values adding up to the trace, det exp(A) = exp(tr A); exactness when the returned values are more than 2e-15 apart, values exact and columns within 2e-15 when they merely differ (partial: the code takes the rotated pair as it is below that gap), and exactness for every matrix with a repeated eigenvalue. Refuted in general: eig_symm multiplies the half gap by sgn(A11 - A22), which is zero when the two Rayleigh quotients coincide, so the witness with eigenvalues -325, 65, 260 is returned as -325, 162.5, 162.5. The functions, inverses and derivatives are proved for matrices decomposed without error. Real arithmetic, not floating point."
  },
  {
   "property": "C59",
   "status": "partial",
   "theorems": [
    "C59_returns",
    "C59_history",
    "C59_frame",
    "C59_rigid",
    "C59_elastic_partial",
    "C59_symmetric_partial",
    "C59_flow_partial",
    "C59_yield_partial",
    "C59_repeat_partial",
    "C59_linear_converges"
   ],
   "note": "Unconditional (in real arithmetic): returning, histories, volume preservation, frame indifference, rigid motions. Partial: symmetry, elastic relation, yield, flow and repeated calls assume that the three eigendecompositions of the call have no error, which eig_symm does not guarantee (C58), and yield and repetition that the scalar solve converged, whose status the code ignores (always true for linear hardening). The tension test of the example meets all hypotheses. Derivatives by dual numbers of this material are not modelled."
  },
  {
   "property": "C60",
   "status": "partial",
   "theorems": [
    "C60_bertoldi_accepted",
    "C60_bertoldi_energy",
    "C60_bertoldi_symmetric",
    "C60_bertoldi_objective",
    "C60_bertoldi_rest",
    "C60_bertoldi_hooke",
    "C60_bertoldi_incompressible_refuted",
    "C60_brighenti_accepted",
    "C60_brighenti_symmetric",
    "C60_brighenti_repeat",
    "C60_brighenti_heating",
    "C60_brighenti_temperature_path",
    "C60_brighenti_reference",
    "C60_brighenti_rotation_partial",
    "C60_brighenti_rotation_refuted",
    "C60_brighenti_first_call_refuted",
    "C60_brighenti_segments_refuted"
   ],
   "note": "Both models modelled completely. Refuted: Bertoldi accepts nu = 1/2; Brighenti's first call absorbs the deformation, rigid rotation produces stress unless about the director, N_b_squared does not cancel (misplaced parenthesis in mu0). Over the reals; derivatives with respect to the parameters are those of C16/C20's dual numbers and not restated."
  },
  {
   "property": "C61",
   "status": "partial",
   "theorems": [
    "C61_sqrt_shape",
    "C61_sqrt_partial",
    "C61_polar_partial",
    "C61_sqrt_refuted"
   ],
   "note": "Proved for all symmetric positive definite matrices (existence, symmetry, definiteness, commutation); accuracy for eigenvalues in [1e-6, 1e6]; refuted beyond (15 Newton steps from A). Over the reals, 3x3 only."
  },
  {
   "property": "C62",
   "status": "proved",
   "theorems": [
    "C62_quad_interpolate",
    "C62_hex_interpolate",
    "C62_quad_integrate",
    "C62_hex_integrate",
    "C62_quad_apply",
    "C62_hex_apply",
    "C62_quad_transpose",
    "C62_hex_transpose",
    "C62_quad_matrix",
    "C62_hex_matrix",
    "C62_quad_curl",
    "C62_hex_curl",
    "C62_quad_trace",
    "C62_hex_trace",
    "C62_quad_gradient",
    "C62_hex_gradient",
    "C62_quad_nodes",
    "C62_hex_nodes",
    "C62_segment_derivative",
    "C62_segment_nodes"
   ],
   "note": "Orders 1 to 3 (interpolation and integration also order 0 degenerate case): interpolation, integration, element matrices, curl, tangential traces, gradient inclusion and the nodal property (to 2e-15, since the tabulated Gauss points are rounded) for quadrilaterals and hexahedra; values and derivatives on segments. Tensor contractions are exact real arithmetic. Not stated: batches, vector-valued Hcurl (c > 1), and integrate ignores its step argument, so only one trial column is modelled. A segment Hcurl element has p+1 functions while a side of a quadrilateral has p; the code documents boundary elements of 2D Hcurl spaces as a known issue."
  },
  {
   "property": "C63",
   "status": "proved",
   "theorems": [
    "C63_gradient",
    "C63_curl"
   ],
   "note": "Element maps are arbitrary functions with the stated derivatives; fields are differentiable along every curve through the image point. The element map and Jacobian of the code are those of C52."
  },
  {
   "property": "C64",
   "status": "proved",
   "theorems": [
    "C64_error",
    "C64_best",
    "C64_consistent",
    "C64_exact"
   ],
   "note": "Stated for the values on one rank (local vectors); the action of the mass matrix is the value of the mass functional, which is linear; the conjugate gradient solver of mfem is not modelled, its remaining residual appears in C64_error."
  },
  {
   "property": "C65",
   "status": "partial",
   "theorems": [
    "C65_contact_conditions",
    "C65_balance_partial",
    "C65_separation_refuted",
    "C65_penalty_balance_partial",
    "C65_penalty_time_refuted",
    "C65_jacobian_forces",
    "C65_jacobian_gaps",
    "C65_correction"
   ],
   "note": "Proved: contact conditions after every step with multipliers, for every evaluation history; Jacobian = derivative of the next evaluation (settled, off the tolerance edge); corrections leave prescribed displacements and inactive multipliers alone. Refuted: balance after pulling off (Newton stops with a tensile multiplier which is then dropped); with penalty enforcement the residual is always evaluated at the initial time because ode_time_point_ is never advanced. Tribol gaps, forces and blocks are parameters."
  },
  {
   "property": "C66",
   "status": "partial",
   "theorems": [
    "C66_point_history",
    "C66_point_answers",
    "C66_uniaxial_history",
    "C66_find_root",
    "C66_lateral_stress_partial",
    "C66_linear_isotropic",
    "C66_lateral_stress_refuted"
   ],
   "note": "Histories of both drivers proved for every material. Lateral stresses proved to vanish (1e-8) for materials affine in the lateral strains, with Hooke constants for the linear one; refuted in general: find_root stops after ten steps without saying so (double root). One step (num_steps = 1) gives one entry at time 0."
  },
  {
   "property": "C67",
   "status": "partial",
   "theorems": [
    "C67_output",
    "C67_names_apart",
    "C67_two_modules",
    "C67_construct_partial",
    "C67_parameter",
    "C67_shape",
    "C67_others",
    "C67_restart_refuted",
    "C67_checkpoint_file_refuted",
    "C67_shape_kept_refuted",
    "C67_adjoint_written_refuted",
    "C67_parameter_default_refuted"
   ],
   "note": "Proved for every program: output never fails and its file holds the module (and both of two modules), names stay apart, parameters and shape displacement are set exactly when spaces agree, other modules are left alone. Refuted in the code: the constructors zero the fields a restart loaded (and overwrite the saved file when checkpoints go to disk), zero the shape displacement of the mesh, never write the adjoint fields, and leave unset parameters undefined. A step is any change of the fields of the module itself."
  },
  {
   "property": "C68",
   "status": "proved",
   "theorems": [
    "C68_elastic_residual",
    "C68_elastic_positive",
    "C68_isotropic",
    "C68_elastic_problem",
    "C68_work",
    "C68_conserved_direct",
    "C68_conserved_rate",
    "C68_stable",
    "C68_stable_needs_beta",
    "C68_backward_euler",
    "C68_diffusion",
    "C68_momentum",
    "C68_heat_residual",
    "C68_heat_positive",
    "C68_heat_problem",
    "C68_fourier",
    "C68_cooling",
    "C68_heat_decay"
   ],
   "note": "Proved in exact arithmetic for every solver that meets its contract (C24). The energy statements cover linear elastic terms without state and dead loads, and linear heat conduction with supplies and linear cooling (decay under backward Euler); the momentum statement covers every material. The average-acceleration, HHT and WBZ solvers of MFEM are not modelled."
  },
  {
   "property": "C69",
   "status": "proved",
   "theorems": [
    "C69_rigid_motion",
    "C69_equilibrium",
    "C69_materials",
    "C69_needs_nonlinear_geometry"
   ],
   "note": "Proved for every term whose stress turns with the body and whose loads are turned along, in 2D and 3D. Neo-Hookean and St. Venant-Kirchhoff are shown to be such materials. C69_needs_nonlinear_geometry shows the hypothesis on geometric nonlinearities is needed. Not included: internal variables written by the second evaluation (a stress function only reads the state) and contact forces."
  },
  {
   "property": "C70",
   "status": "partial",
   "theorems": [
    "C70_curves",
    "C70_statistics",
    "C70_other_ranks",
    "C70_misuse",
    "C70_driver",
    "C70_names",
    "C70_zero_dt_refuted",
    "C70_second_module_refuted",
    "C70_clash_refuted"
   ],
   "note": "The norm (MFEM) is a parameter; Sidre groups are association lists whose names contain no slash. Refuted: a zero dt, clashing state names and a second module on the same DataStore are undefined."
  },
  {
   "property": "C71",
   "status": "partial",
   "theorems": [
    "C71_inspection",
    "C71_simulation",
    "C71_contained",
    "C71_refused",
    "C71_accepted",
    "C71_defined",
    "C71_default_output",
    "C71_printed",
    "C71_print_unused_refuted"
   ],
   "note": "Splitting argv (CLI11), --help and what other ranks write at the same time are not modelled; the time loop is that of C53. Refuted: --print-unused is missing from the printed options."
  },
  {
   "property": "C72",
   "status": "proved",
   "theorems": [
    "C72_nodal_force",
    "C72_area_vectors",
    "C72_inner_node",
    "C72_regions",
    "C72_heat",
    "C72_loaded_force",
    "C72_loaded",
    "C72_loaded_heat",
    "C72_pressure",
    "C72_materials"
   ],
   "note": "The moments of the quadrature rules enter as a hypothesis with a common factor kappa: triangles and tetrahedra need only the sum of weights, so rules with rounded decimals are covered; quads and boundary segments need moments of degree one, boundary triangles degree one, hexes and boundary quads degree two. Higher-order elements are covered by C72_nodal_force and C72_loaded_force only (stress applied to the integrals of the shape gradient and of the shape function times the normal). No body force, no acceleration."
  },
  {
   "property": "C73",
   "status": "partial",
   "theorems": [
    "C73_step",
    "C73_tangent",
    "C73_material_history",
    "C73_solver_invisible",
    "C73_equilibrium",
    "C73_newton",
    "C73_newton_is_newton",
    "C73_newton_equilibrium",
    "C73_supports",
    "C73_reset_refuted",
    "C73_files_refuted",
    "C73_previous_is_first",
    "C73_previous_refuted",
    "C73_trust_region",
    "C73_trust_region_is"
   ],
   "note": "Proved for every functional, solver and history of steps: each step succeeds and does what the record `advances` says (C73_step), the tangent is the derivative of the nodal forces, material state moves once per step, solver paths are invisible, and a trustworthy solver (Newton with line search and the trust-region solver are both proved to be) leaves equilibrium and supports carrying the loads. Three parts of the statement are false of the code: resetStates keeps the material state, a checkpoint file holds the reactions of the step before, and the warm start linearises about the parameters of the first step. The hypothesis on derivatives of the integrands is proved for the elastic materials in C82."
  },
  {
   "property": "C74",
   "status": "partial",
   "theorems": [
    "C74_gradient_continuous_partial",
    "C74_last_reaction_continuous_partial",
    "C74_joint_derivative",
    "C74_pass",
    "C74_gradient_partial",
    "C74_last_reaction_partial",
    "C74_memory_refuted",
    "C74_changed_parameters_refuted",
    "C74_reactions_refuted"
   ],
   "note": "Proved: tangent and assembled parameter gradient are the joint derivative of the nodal forces, the reverse pass succeeds and returns the sum of the sensitivities of the single equilibria for every history (C74_pass), which is the derivative of the objective for materials without memory and parameters that stay (C74_gradient_partial); reactions only for the last step (C74_last_reaction_partial). The rest of the statement is false of the code: with material memory the pass ignores the dependence through the state (C74_memory_refuted), a step before a change of parameters is linearised with the final ones (C74_changed_parameters_refuted), and reaction loads of earlier steps are made with the displacement of the step after (C74_reactions_refuted). The hypothesis on derivatives of the integrands is proved for the elastic materials in C82. That the runs depend differentiably on the parameter is not assumed but follows from continuity (C74_gradient_continuous_partial, C74_last_reaction_continuous_partial)."
  },
  {
   "property": "C75",
   "status": "partial",
   "theorems": [
    "C75_evaluation",
    "C75_history",
    "C75_any_two_divisions",
    "C75_differentiated",
    "C75_action",
    "C75_matrix_partial",
    "C75_empty_process_refuted",
    "C75_quantity_gradient"
   ],
   "note": "Evaluation, histories, action of the gradient and QoI gradients are proved for all divisions, empty processes included. The assembled matrix is proved when every process has elements and each of its local dofs belongs to one (C75_matrix_partial); C75_empty_process_refuted: on a process without elements the lookup table reads entries[0] of an empty vector, although the other operations handle such a process. Real arithmetic: floating-point sums depend on the order."
  },
  {
   "property": "C76",
   "status": "partial",
   "theorems": [
    "C76_step",
    "C76_solver_sees",
    "C76_solver_input",
    "C76_jacobian",
    "C76_motion",
    "C76_newton",
    "C76_start",
    "C76_start_time_refuted",
    "C76_still",
    "C76_material_history",
    "C76_run",
    "C76_solver_invisible",
    "C76_heat",
    "C76_heat_step",
    "C76_steady",
    "C76_steady_step"
   ],
   "note": "Proved for Newmark and backward Euler, direct and rate control of boundary dofs, any solver, and for transient and steady heat; a Newmark step of length zero keeps the state and finds the acceleration that balances the forces at the present time (C76_still). Refuted: a module which starts at a time other than 0 computes its first Newmark acceleration with the boundary values and loads of time 0, unless its first step has length zero. Full control of boundary dofs is refuted under C24. Runs on several processes: C79."
  },
  {
   "property": "C77",
   "status": "partial",
   "theorems": [
    "C77_joint_derivative",
    "C77_heat_pass",
    "C77_heat_gradient_partial",
    "C77_heat_gradient_continuous_partial",
    "C77_steady_pass",
    "C77_steady_gradient_partial"
   ],
   "note": "Proved for DirectControl and RateControl of constrained dofs, any material and any number and sizes of steps: the pass uses for every step its own end time, temperature, rate and step size (C77_heat_pass), and its total is the derivative (C77_heat_gradient_partial) when the parameter is the same in all steps of one run, rate loads are given in every step or in none, and, under RateControl, the initial temperature is fixed at constrained dofs. Outside these limits see C26_stale_load_refuted, C26_rate_control_refuted and C74_changed_parameters_refuted. The capacity matrix is symmetric, as the code assumes. Runs on several processes: C79. That the runs depend differentiably on the parameter follows from continuity of the temperatures (C77_heat_gradient_continuous_partial)."
  },
  {
   "property": "C78",
   "status": "partial",
   "theorems": [
    "C78_motion_gradient_continuous_partial",
    "C78_motion_pass",
    "C78_whole_pass",
    "C78_motion_gradient_partial"
   ],
   "note": "Proved for DirectControl and RateControl of constrained dofs, materials without memory and any number and sizes of steps after a first one of length zero: the pass uses for every step its own end time, displacement, acceleration, size and the size of the step after it (C78_motion_pass), and its total with the two initial condition sensitivities is the derivative (C78_motion_gradient_partial) when the parameter is the same in all steps, the objective does not depend on velocity and acceleration loads are given in every step or in none. Outside that the claim is false: C25_velocity_objective_refuted, C25_first_step_refuted, C74_memory_refuted. The hypothesis on derivatives of the integrands is proved for the elastic materials in C82. That the runs depend differentiably on the parameter follows from continuity of the accelerations (C78_motion_gradient_continuous_partial)."
  },
  {
   "property": "C79",
   "status": "proved",
   "theorems": [
    "C79_any_program",
    "C79_quasi_static",
    "C79_quasi_static_sensitivity",
    "C79_dynamic",
    "C79_heat",
    "C79_heat_sensitivity",
    "C79_dynamic_sensitivity"
   ],
   "note": "All theorems are about exact arithmetic: on several processes sums are taken in another order, so results agree up to rounding only. Nonlinear and linear solvers are any functions of true-dof vectors and matrices of the whole system. C79_any_program covers every module step that only evaluates its residual and assembles its derivatives; the other theorems instantiate it with the run models of C73, C74, C76, C77 and C78, which were stated for one process."
  },
  {
   "property": "C80",
   "status": "partial",
   "theorems": [
    "C80_own_state",
    "C80_value",
    "C80_history",
    "C80_module_buffer_fits",
    "C80_higher_order_parameter",
    "C80_rows_overlap_refuted",
    "C80_shared_buffer_refuted"
   ],
   "note": "Proved when every integral has its own buffer and no space of the functional has a higher order than the module. Refuted otherwise: createQuadratureDataBuffer uses the order of the module only, so a parameter field of higher order makes the kernels run past the end of the rows (always out of bounds when the material covers the mesh, silently shared between neighbouring elements when it covers a part), and one buffer passed to two materials on disjoint domains is indexed from row 0 by both. Derivatives are stored in arrays allocated per integral with the right size and are not part of this model."
  },
  {
   "property": "C81",
   "status": "partial",
   "theorems": [
    "C81_static_step",
    "C81_dynamic_step",
    "C81_static",
    "C81_dynamic",
    "C81_reported_configuration_refuted",
    "C81_one_way",
    "C81_static_run",
    "C81_dynamic_run",
    "C81_heat_part",
    "C81_heat_part_dynamic",
    "C81_solid_part",
    "C81_solid_part_dynamic"
   ],
   "note": "Proved for any functionals, materials with state, boundary conditions, nonlinear solvers, steady or backward-Euler conduction, quasi-static, Newmark or backward-Euler solids and any number of steps, in real arithmetic and on one process (C79 treats the number of processes for each module). The stronger expectation, that heat balances in the configuration reported at the end of a step, is refuted for a bar whose conduction depends on displacement, and proved (C81_one_way) when it does not. FullControl enforcement and steps of length zero are left to C76. The clock of a module constructed at another time, and the material adaptors, are in C54."
  },
  {
   "property": "C82",
   "status": "partial",
   "theorems": [
    "C82_linear",
    "C82_argument",
    "C82_joint",
    "C82_gradient",
    "C82_all_arguments",
    "C82_tangent",
    "C82_kink_refuted",
    "C82_heat_values",
    "C82_heat_gradient",
    "C82_heat_all_arguments",
    "C82_heat_joint",
    "C82_conductors",
    "C82_solid_values",
    "C82_solid_configurations",
    "C82_solid_gradient",
    "C82_solid_all_arguments",
    "C82_solid_joint",
    "C82_solid_tangent",
    "C82_inverse"
   ],
   "note": "Proved for integrands which are expressions over the overloads of dual.hpp, with material states, positions and Jacobians as constants of the point. The elastic materials (linear, St. Venant-Kirchhoff, Neo-Hookean, the two parameterized ones), body forces, tractions and pressures are shown to be such expressions, differentiable in every configuration without inverted points (C82_solid_configurations, C82_solid_gradient), and so are the conductors with sources and fluxes which are differentiable expressions (C82_heat_gradient; the stop on negative conductivity is C51). The overload of the matrix inverse agrees with the cofactor formula on duals (C82_inverse). Linear solves and the iterative scalar solver have their own rules (C19, C21). Refuted at points where a comparison of varying numbers is a tie: a derivative is stored although the residual has none."
  },
  {
   "property": "C83",
   "status": "proved",
   "theorems": [
    "C83_values",
    "C83_side",
    "C83_place",
    "C83_all_points",
    "C83_continuous",
    "C83_functions",
    "C83_sizes",
    "C83_shared_faces_shift"
   ],
   "note": "Full for the discontinuous branch of GetFaceDofs: both kinds of faces, all sides and orientations, orders zero to three, on meshes with the guarantees mfem gives (each face lists its elements, each element its sides with orientation). C83_continuous covers continuous fields through the shared dofs of a face; which dofs mfem shares is its own. C83_shared_faces_shift shows that rows of interior faces get out of step when an interior face has only one element on this process; no caller asks for interior faces."
  },
  {
   "property": "C84",
   "status": "partial",
   "theorems": [
    "C84_box",
    "C84_ball_partial",
    "C84_refined_disk_refuted",
    "C84_file",
    "C84_file_number",
    "C84_file_region",
    "C84_any_processes",
    "C84_outcomes",
    "C84_forgotten_size_refuted",
    "C84_no_elements_refuted",
    "C84_unused_size_refuted",
    "C84_negative_levels_refuted"
   ],
   "note": "Boxes, files, independence of processes and the exact set of accepted blocks are proved in full. For disks and balls numbers and containment are proved in full; that boundary corners lie on the circle or sphere only without refinement of the finished mesh (C84_ball_partial), and refuted with it (C84_refined_disk_refuted). Refusal with a message is refuted for a forgotten z size (exception, C84_forgotten_size_refuted), for numbers of elements that are not positive (C84_no_elements_refuted) and for entries that contradict the rest (C84_unused_size_refuted, C84_negative_levels_refuted)."
  },
  {
   "property": "C85",
   "status": "proved",
   "theorems": [
    "C85_resultant",
    "C85_moment",
    "C85_work",
    "C85_volume"
   ],
   "note": "Linear boundary elements (segments, triangles, quads) whose rules integrate the moments listed in linear_skin up to a common factor kappa (1 for exact weights); pressures uniform over all pressed boundary elements; real arithmetic. Two evaluations of the same residual at two times are compared, so the statement isolates the pressure from all other terms. Curved (higher-order) faces are not included."
  },
  {
   "property": "C86",
   "status": "partial",
   "theorems": [
    "C86_partial",
    "C86_dense",
    "C86_quotient",
    "C86_inverse",
    "C86_refuted",
    "C86_inverse_refuted"
   ],
   "note": "C86_partial: any expression that compiles returns what index notation gives, provided no product is written tensor * isotropic. C86_dense: with full tensors every meaningful expression compiles and returns its value. C86_refuted, C86_inverse_refuted: tensor * isotropic compiles to an isotropic tensor whose value is a tensor, so antisym(A * I) is zero and dot(inv(A * I), x) uses reciprocals of the entries. Rank 3 and dual entries are not modelled."
  },
  {
   "property": "C87",
   "status": "partial",
   "theorems": [
    "C87_slope",
    "C87_path",
    "C87_cycle",
    "C87_equilibrium",
    "C87_minimum",
    "C87_power",
    "C87_conserved",
    "C87_linear",
    "C87_linear_quadratic",
    "C87_stvk",
    "C87_neo",
    "C87_linear_refuted"
   ],
   "note": "Slope, path and cycle work, equilibrium, minimum, power and conservation are proved for every body whose material terms store an energy; C87_linear, C87_stvk and C87_neo give the energies of the shipped materials. C87_linear_refuted: LinearIsotropic with GeometricNonlinearities::On, which setMaterial accepts, is not the derivative of any energy. Motions are exact ones of the spatially discrete body (the time integrators are the subject of C68)."
  },
  {
   "property": "C88",
   "status": "partial",
   "theorems": [
    "C88_method",
    "C88_started",
    "C88_systems",
    "C88_preconditioner",
    "C88_linear_settings",
    "C88_linear_settings_partial",
    "C88_linear_settings_refuted",
    "C88_min_iterations_refuted",
    "C88_backoff",
    "C88_backoff_reaches"
   ],
   "note": "Method, line search, nonlinear tolerances, order of systems and preconditioner: proved for all histories. Linear tolerances: proved for non-PETSc linear solvers and, for PETSc ones, from the first linear solve of the physics module on; refuted before it (IterativeSolver::SetRelTol only stores the value, the KSP handle gets it in SetOperator, which the SNES does not call). min_iterations counts only as a forced first iteration (refuted). PETSc itself and MATNEST systems are not modelled."
  },
  {
   "property": "C89",
   "status": "partial",
   "theorems": [
    "C89_assembled",
    "C89_solver",
    "C89_rate",
    "C89_stiffness",
    "C89_linear",
    "C89_stvk",
    "C89_neo",
    "C89_stored",
    "C89_mixed_refuted"
   ],
   "note": "Tangent matrix of the assembled residual with LinearIsotropic, StVenantKirchhoff, NeoHookean and the two parameterized laws is symmetric at every displacement without inverted points, also after elimination of essential boundary conditions; general theorem for any material whose point tangent is symmetric (including displacement and acceleration moved together) and for any material that stores energy. Small-strain law with geometric nonlinearity is refuted; follower pressure is outside the hypotheses."
  },
  {
   "property": "C90",
   "status": "proved",
   "theorems": [
    "C90_mesh",
    "C90_one",
    "C90_differ",
    "C90_definite",
    "C90_supported",
    "C90_isotropic"
   ],
   "note": "Existence and uniqueness of the static equilibrium of the assembled residual of linear elastic terms with dead loads, equivalent to support; sufficient clamping on linked meshes of linear triangles or tetrahedra. Exact arithmetic; convergence of the solver is the subject of other properties. Other element shapes are covered by C90_one through the condition that no displacement without strain remains."
  },
  {
   "property": "C91",
   "status": "proved",
   "theorems": [
    "C91_steady",
    "C91_step",
    "C91_one",
    "C91_differ",
    "C91_fourier"
   ],
   "note": "Existence and uniqueness of the steady temperature and of the rate in an implicit step, for the assembled residual of linear heat terms; sufficient conditions on meshes of linear triangles or tetrahedra. Exact arithmetic; nonlinear conductors (temperature dependent conductivity or capacity) are outside the hypotheses."
  },
  {
   "property": "C92",
   "status": "proved",
   "theorems": [
    "C92_matrix",
    "C92_definite",
    "C92_system",
    "C92_newton"
   ],
   "note": "Proved for exact arithmetic and an exact linear solver. Newton is stated for starts that the solver does not accept as they are: for those it returns the start (C28)."
  },
  {
   "property": "C93",
   "status": "proved",
   "theorems": [
    "C93_step",
    "C93_run",
    "C93_history"
   ],
   "note": "Proved for exact arithmetic, an exact linear solver and a zero absolute tolerance; with a positive tolerance the bound of C73_newton_equilibrium applies."
  },
  {
   "property": "C94",
   "status": "proved",
   "theorems": [
    "C94_supported",
    "C94_implicit",
    "C94_explicit",
    "C94_kinetic"
   ],
   "note": "Proved as an equivalence for every step coefficient c0 >= 0 in exact arithmetic; the witness shows a free body with unique implicit steps and, with one-point quadrature, non-unique explicit steps."
  },
  {
   "property": "C95",
   "status": "proved",
   "theorems": [
    "C95_code",
    "C95_forgets",
    "C95_settles",
    "C95_exist"
   ],
   "note": "Proved for backward Euler with direct enforcement of the prescribed temperatures, in exact arithmetic; convergence to the steady temperature is uniform in the division into steps."
  },
  {
   "property": "C96",
   "status": "proved",
   "theorems": [
    "C96_energy",
    "C96_energy_rate",
    "C96_close",
    "C96_any"
   ],
   "note": "Proved for the average acceleration method with the values or the rates of the prescribed displacements enforced (the bound on displacements with values enforced), in exact arithmetic, for linear elastic material."
  },
  {
   "property": "C97",
   "status": "partial",
   "theorems": [
    "C97_marks",
    "C97_lists",
    "C97_complete",
    "C97_division",
    "C97_component_refuted"
   ],
   "note": "Proved for components below the number of components of the space; beyond it the property is refuted (C97_component_refuted), because the code does not check the argument. Conforming meshes; the exchange between processes is the documented behaviour of the finite element library."
  }
 ]
}