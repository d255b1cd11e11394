{
 "claims": [
  {
   "property": "C01",
   "status": "proved",
   "theorems": [
    "C01_names",
    "C01_re_order_permutation",
    "C01_meshio_injective",
    "C01_meshio_cell",
    "C01_face_cell"
   ],
   "note": ""
  },
  {
   "property": "C02",
   "status": "proved",
   "theorems": [
    "C02_reorder_inds",
    "C02_face_nodes"
   ],
   "note": ""
  },
  {
   "property": "C03",
   "status": "proved",
   "theorems": [
    "C03_kronecker",
    "C03_node_positions"
   ],
   "note": ""
  },
  {
   "property": "C04",
   "status": "proved",
   "theorems": [
    "C04_partition_of_unity",
    "C04_gradients_sum_to_zero",
    "C04_linear_completeness",
    "C04_linear_gradients",
    "C04_gradient_is_derivative",
    "C04_facet_points"
   ],
   "note": ""
  },
  {
   "property": "C05",
   "status": "proved",
   "theorems": [
    "C05_affine_gradient_exact",
    "C05_face_gradient_exact"
   ],
   "note": ""
  },
  {
   "property": "C06",
   "status": "proved",
   "theorems": [
    "C06_affine_field_at_quad_points",
    "C06_linear",
    "C06_constants"
   ],
   "note": ""
  },
  {
   "property": "C07",
   "status": "proved",
   "theorems": [
    "C07_translation",
    "C07_linear_map",
    "C07_affine_cell",
    "C07_simplex",
    "C07_quad4"
   ],
   "note": ""
  },
  {
   "property": "C08",
   "status": "proved",
   "theorems": [
    "C08_nanson",
    "C08_face_measure"
   ],
   "note": ""
  },
  {
   "property": "C09",
   "status": "proved",
   "theorems": [
    "C09_dirichlet_selection",
    "C09_dirichlet_update",
    "C09_prescribed_value"
   ],
   "note": ""
  },
  {
   "property": "C10",
   "status": "proved",
   "theorems": [
    "C10_face_selection",
    "C10_count_selected_faces"
   ],
   "note": ""
  },
  {
   "property": "C11",
   "status": "proved",
   "theorems": [
    "C11_dof_numbering_bijection",
    "C11_flatten_position",
    "C11_element_indices"
   ],
   "note": ""
  },
  {
   "property": "C12",
   "status": "proved",
   "theorems": [
    "C12_unflatten_flatten",
    "C12_flatten_unflatten"
   ],
   "note": ""
  },
  {
   "property": "C13",
   "status": "proved",
   "theorems": [
    "C13_batching_invisible",
    "C13_no_cells_raises"
   ],
   "note": "zero cells: proved to raise"
  },
  {
   "property": "C14",
   "status": "proved",
   "theorems": [
    "C14_residual_assembly",
    "C14_standard_kernels"
   ],
   "note": ""
  },
  {
   "property": "C15",
   "status": "proved",
   "theorems": [
    "C15_matrix_assembly"
   ],
   "note": ""
  },
  {
   "property": "C16",
   "status": "proved",
   "theorems": [
    "C16_matrix_is_derivative",
    "C16_affine_exact"
   ],
   "note": ""
  },
  {
   "property": "C17",
   "status": "proved",
   "theorems": [
    "C17_newton_update_agrees"
   ],
   "note": ""
  },
  {
   "property": "C18",
   "status": "proved",
   "theorems": [
    "C18_total_load",
    "C18_internal_forces_balance"
   ],
   "note": ""
  },
  {
   "property": "C19",
   "status": "proved",
   "theorems": [
    "C19_surface_count",
    "C19_mismatch_raises",
    "C19_second_list_unchecked"
   ],
   "note": ""
  },
  {
   "property": "C20",
   "status": "proved",
   "theorems": [
    "C20_apply_bc_vec",
    "C20_constrained_prescribed"
   ],
   "note": ""
  },
  {
   "property": "C21",
   "status": "proved",
   "theorems": [
    "C21_assign_bc",
    "C21_assign_bc_idempotent",
    "C21_assign_ones_bc",
    "C21_assign_zeros_bc",
    "C21_copy_bc"
   ],
   "note": ""
  },
  {
   "property": "C22",
   "status": "proved",
   "theorems": [
    "C22_tangent_rows",
    "C22_tangent_is_derivative"
   ],
   "note": ""
  },
  {
   "property": "C23",
   "status": "proved",
   "theorems": [
    "C23_newton_step_enforces_bc",
    "C23_initial_guess"
   ],
   "note": ""
  },
  {
   "property": "C24",
   "status": "proved",
   "theorems": [
    "C24_cache_fresh",
    "C24_moved_lists_refuted"
   ],
   "note": ""
  },
  {
   "property": "C25",
   "status": "proved",
   "theorems": [
    "C25_flat",
    "C25_none",
    "C25_method",
    "C25_two_methods",
    "C25_flat_is_nested",
    "C25_unrecognised"
   ],
   "note": ""
  },
  {
   "property": "C26",
   "status": "proved",
   "theorems": [
    "C26_selection",
    "C26_dict_after",
    "C26_sharing",
    "C26_default_sticks"
   ],
   "note": ""
  },
  {
   "property": "C27",
   "status": "proved",
   "theorems": [
    "C27_jax",
    "C27_petsc"
   ],
   "note": ""
  },
  {
   "property": "C28",
   "status": "proved",
   "theorems": [
    "C28_newton_contract",
    "C28_converged_start",
    "C28_bad_start",
    "C28_nan_raises"
   ],
   "note": ""
  },
  {
   "property": "C29",
   "status": "proved",
   "theorems": [
    "C29_bc_to_tolerance"
   ],
   "note": ""
  },
  {
   "property": "C30",
   "status": "proved",
   "theorems": [
    "C30_line_search",
    "C30_nan_refuted"
   ],
   "note": ""
  },
  {
   "property": "C31",
   "status": "proved",
   "theorems": [
    "C31_disp_iterate",
    "C31_force_iterate",
    "C31_disp_linearised",
    "C31_force_linearised",
    "C31_disp_step",
    "C31_force_step",
    "C31_update_raises",
    "C31_residual"
   ],
   "note": ""
  },
  {
   "property": "C32",
   "status": "proved",
   "theorems": [
    "C32_disp_choice",
    "C32_force_choice"
   ],
   "note": ""
  },
  {
   "property": "C33",
   "status": "proved",
   "theorems": [
    "C33_displacement",
    "C33_force",
    "C33_polished",
    "C33_control_required",
    "C33_load_required"
   ],
   "note": ""
  },
  {
   "property": "C34",
   "status": "proved",
   "theorems": [
    "C34_iterates",
    "C34_result",
    "C34_guess",
    "C34_no_guess"
   ],
   "note": ""
  },
  {
   "property": "C35",
   "status": "proved",
   "theorems": [
    "C35_velocity",
    "C35_damping",
    "C35_multiplier"
   ],
   "note": ""
  },
  {
   "property": "C36",
   "status": "proved",
   "theorems": [
    "C36_solution",
    "C36_equal_rows",
    "C36_matrix",
    "C36_same_evaluation",
    "C36_derivative",
    "C36_dynamic_relax_refuted"
   ],
   "note": ""
  },
  {
   "property": "C37",
   "status": "proved",
   "theorems": [
    "C37_adjoint"
   ],
   "note": ""
  },
  {
   "property": "C38",
   "status": "proved",
   "theorems": [
    "C38_amgx_released",
    "C38_amgx_errors",
    "C38_amgx_refuted"
   ],
   "note": ""
  },
  {
   "property": "C39",
   "status": "proved",
   "theorems": [
    "C39_bounds",
    "C39_asymptotes"
   ],
   "note": ""
  },
  {
   "property": "C40",
   "status": "proved",
   "theorems": [
    "C40_objective_gradient",
    "C40_constraint_gradient",
    "C40_constraint_value",
    "C40_positive",
    "C40_convex"
   ],
   "note": ""
  },
  {
   "property": "C41",
   "status": "proved",
   "theorems": [
    "C41_visited",
    "C41_subsolv"
   ],
   "note": ""
  },
  {
   "property": "C42",
   "status": "proved",
   "theorems": [
    "C42_box"
   ],
   "note": ""
  },
  {
   "property": "C43",
   "status": "proved",
   "theorems": [
    "C43_weights",
    "C43_range",
    "C43_constant"
   ],
   "note": ""
  },
  {
   "property": "C44",
   "status": "proved",
   "theorems": [
    "C44_layout",
    "C44_conforming",
    "C44_tiling",
    "C44_area"
   ],
   "note": ""
  },
  {
   "property": "C45",
   "status": "proved",
   "theorems": [
    "C45_layout",
    "C45_conforming",
    "C45_tiling",
    "C45_volume"
   ],
   "note": ""
  },
  {
   "property": "C46",
   "status": "proved",
   "theorems": [
    "C46_coordinates_kept",
    "C46_no_orphans",
    "C46_dropped_point_refuted"
   ],
   "note": ""
  },
  {
   "property": "C47",
   "status": "proved",
   "theorems": [
    "C47_jacobian",
    "C47_translation",
    "C47_orientation",
    "C47_arity"
   ],
   "note": ""
  },
  {
   "property": "C48",
   "status": "proved",
   "theorems": [
    "C48_only_header",
    "C48_newlines",
    "C48_idempotent",
    "C48_same_path_refuted",
    "C48_missing"
   ],
   "note": ""
  },
  {
   "property": "C49",
   "status": "proved",
   "theorems": [
    "C49_saved",
    "C49_rejected",
    "C49_bare_file_name",
    "C49_unknown_element"
   ],
   "note": ""
  },
  {
   "property": "C50",
   "status": "proved",
   "theorems": [
    "C50_one_handler",
    "C50_handlers_kept",
    "C50_levels"
   ],
   "note": ""
  },
  {
   "property": "C51",
   "status": "proved",
   "theorems": [
    "C51_weak_form"
   ],
   "note": ""
  },
  {
   "property": "C52",
   "status": "proved",
   "theorems": [
    "C52_virtual_work"
   ],
   "note": ""
  },
  {
   "property": "C53",
   "status": "proved",
   "theorems": [
    "C53_moment_balance"
   ],
   "note": ""
  },
  {
   "property": "C54",
   "status": "proved",
   "theorems": [
    "C54_rigid_translation"
   ],
   "note": ""
  },
  {
   "property": "C55",
   "status": "proved",
   "theorems": [
    "C55_construction"
   ],
   "note": ""
  },
  {
   "property": "C56",
   "status": "proved",
   "theorems": [
    "C56_no_iteration_limit"
   ],
   "note": ""
  },
  {
   "property": "C57",
   "status": "proved",
   "theorems": [
    "C57_disp_last_update",
    "C57_force_last_update",
    "C57_disp_prescribed",
    "C57_returned_point_in_equilibrium_refuted"
   ],
   "note": ""
  },
  {
   "property": "C58",
   "status": "proved",
   "theorems": [
    "C58_rows",
    "C58_one_variable"
   ],
   "note": ""
  },
  {
   "property": "C59",
   "status": "proved",
   "theorems": [
    "C59_shapes",
    "C59_pair",
    "C59_no_pair"
   ],
   "note": ""
  },
  {
   "property": "C60",
   "status": "proved",
   "theorems": [
    "C60_newton"
   ],
   "note": ""
  },
  {
   "property": "C61",
   "status": "proved",
   "theorems": [
    "C61_quality",
    "C61_ends",
    "C61_descent"
   ],
   "note": ""
  },
  {
   "property": "C62",
   "status": "proved",
   "theorems": [
    "C62_symmetric"
   ],
   "note": ""
  },
  {
   "property": "C63",
   "status": "proved",
   "theorems": [
    "C63_few_cells"
   ],
   "note": ""
  },
  {
   "property": "C64",
   "status": "proved",
   "theorems": [
    "C64_adjoint"
   ],
   "note": ""
  },
  {
   "property": "C65",
   "status": "proved",
   "theorems": [
    "C65_completes"
   ],
   "note": ""
  },
  {
   "property": "C66",
   "status": "proved",
   "theorems": [
    "C66_history",
    "C66_moves"
   ],
   "note": ""
  },
  {
   "property": "C67",
   "status": "proved",
   "theorems": [
    "C67_rectangle",
    "C67_box",
    "C67_nonvacuous"
   ],
   "note": ""
  },
  {
   "property": "C68",
   "status": "proved",
   "theorems": [
    "C68_timeit",
    "C68_walltime_raises",
    "C68_walltime_log_only",
    "C68_walltime_file",
    "C68_platform_refuted"
   ],
   "note": ""
  },
  {
   "property": "C69",
   "status": "proved",
   "theorems": [
    "C69_rectangle",
    "C69_box",
    "C69_rectangle_solved",
    "C69_box_solved",
    "C69_nonvacuous"
   ],
   "note": ""
  },
  {
   "property": "C70",
   "status": "proved",
   "theorems": [
    "C70_image",
    "C70_columns",
    "C70_chains",
    "C70_accepts",
    "C70_matched",
    "C70_solution",
    "C70_repeated_refuted"
   ],
   "note": ""
  },
  {
   "property": "C71",
   "status": "proved",
   "theorems": [
    "C71_external",
    "C71_markers",
    "C71_held",
    "C71_shrinking_refuted",
    "C71_fewer_raises"
   ],
   "note": ""
  },
  {
   "property": "C72",
   "status": "proved",
   "theorems": [
    "C72_weak_form",
    "C72_quiet_nodes",
    "C72_heat_balance",
    "C72_equilibrium",
    "C72_chain",
    "C72_runs",
    "C72_no_birth"
   ],
   "note": ""
  },
  {
   "property": "C73",
   "status": "proved",
   "theorems": [
    "C73_virtual_work",
    "C73_energy_gradient",
    "C73_elastic_energy",
    "C73_elastic_expansion",
    "C73_elastic_minimum"
   ],
   "note": ""
  },
  {
   "property": "C74",
   "status": "proved",
   "theorems": [
    "C74_bilinear_form",
    "C74_symmetric",
    "C74_nonnegative",
    "C74_elastic"
   ],
   "note": ""
  },
  {
   "property": "C75",
   "status": "proved",
   "theorems": [
    "C75_mass",
    "C75_box_mass",
    "C75_runs",
    "C75_motion",
    "C75_reversal",
    "C75_momentum",
    "C75_spin",
    "C75_energy",
    "C75_stability",
    "C75_small_steps"
   ],
   "note": ""
  },
  {
   "property": "C76",
   "status": "proved",
   "theorems": [
    "C76_return",
    "C76_flow",
    "C76_history",
    "C76_work",
    "C76_average",
    "C76_monotone",
    "C76_unique_stress"
   ],
   "note": ""
  },
  {
   "property": "C77",
   "status": "proved",
   "theorems": [
    "C77_passes",
    "C77_total_gradient",
    "C77_equivalent",
    "C77_energy",
    "C77_rigid",
    "C77_held",
    "C77_tags"
   ],
   "note": ""
  },
  {
   "property": "C78",
   "status": "proved",
   "theorems": [
    "C78_weak_form",
    "C78_run",
    "C78_energy",
    "C78_one_solution",
    "C78_run_exists",
    "C78_orientation",
    "C78_nonvacuous"
   ],
   "note": ""
  },
  {
   "property": "C79",
   "status": "proved",
   "theorems": [
    "C79_one_solution",
    "C79_minimum",
    "C79_regular",
    "C79_clamped_box",
    "C79_clamped_rectangle"
   ],
   "note": ""
  },
  {
   "property": "C80",
   "status": "proved",
   "theorems": [
    "C80_one_step",
    "C80_solver",
    "C80_backends",
    "C80_elastic_affine",
    "C80_elastic"
   ],
   "note": ""
  },
  {
   "property": "C81",
   "status": "proved",
   "theorems": [
    "C81_alternative",
    "C81_regular",
    "C81_solver",
    "C81_definite",
    "C81_diffusion",
    "C81_connected",
    "C81_held_needed",
    "C81_box",
    "C81_rectangle",
    "C81_thermal"
   ],
   "note": ""
  },
  {
   "property": "C82",
   "status": "proved",
   "theorems": [
    "C82_weak_form",
    "C82_solves",
    "C82_symmetric",
    "C82_taylor_hood",
    "C82_regular",
    "C82_solver",
    "C82_contour",
    "C82_contour_raises",
    "C82_contour_problem"
   ],
   "note": ""
  },
  {
   "property": "C83",
   "status": "proved",
   "theorems": [
    "C83_weak_form",
    "C83_solves",
    "C83_one_solution",
    "C83_triangles",
    "C83_regular",
    "C83_solver",
    "C83_runs",
    "C83_energy",
    "C83_bounded",
    "C83_balance",
    "C83_material"
   ],
   "note": ""
  },
  {
   "property": "C84",
   "status": "proved",
   "theorems": [
    "C84_derivative",
    "C84_value",
    "C84_polynomial",
    "C84_algebra",
    "C84_isotropic",
    "C84_growth",
    "C84_lipschitz",
    "C84_tangent",
    "C84_potential"
   ],
   "note": ""
  },
  {
   "property": "C85",
   "status": "proved",
   "theorems": [
    "C85_one_solution",
    "C85_minimum",
    "C85_residual_bound",
    "C85_flux",
    "C85_stress"
   ],
   "note": ""
  },
  {
   "property": "C86",
   "status": "proved",
   "theorems": [
    "C86_split",
    "C86_any_eigh",
    "C86_stress_gradient",
    "C86_undamaged",
    "C86_one_sided",
    "C86_isotropic",
    "C86_grows",
    "C86_noise"
   ],
   "note": ""
  },
  {
   "property": "C87",
   "status": "proved",
   "theorems": [
    "C87_displacement",
    "C87_phase",
    "C87_balance",
    "C87_traction"
   ],
   "note": ""
  },
  {
   "property": "C88",
   "status": "proved",
   "theorems": [
    "C88_history",
    "C88_steps",
    "C88_test",
    "C88_fixed_point",
    "C88_descent"
   ],
   "note": ""
  },
  {
   "property": "C89",
   "status": "proved",
   "theorems": [
    "C89_affine",
    "C89_gradient_at_node",
    "C89_simplex",
    "C89_row_order_refuted"
   ],
   "note": ""
  },
  {
   "property": "C90",
   "status": "proved",
   "theorems": [
    "C90_return",
    "C90_stress",
    "C90_objective",
    "C90_no_shear",
    "C90_determinant",
    "C90_history",
    "C90_isochoric_refuted"
   ],
   "note": ""
  },
  {
   "property": "C91",
   "status": "proved",
   "theorems": [
    "C91_quaternion",
    "C91_turning",
    "C91_stiffness"
   ],
   "note": ""
  },
  {
   "property": "C92",
   "status": "proved",
   "theorems": [
    "C92_solved",
    "C92_search",
    "C92_unloaded",
    "C92_volume_change",
    "C92_tangent"
   ],
   "note": ""
  },
  {
   "property": "C93",
   "status": "proved",
   "theorems": [
    "C93_stress",
    "C93_flow",
    "C93_hardening",
    "C93_volume_refuted",
    "C93_saturation_refuted",
    "C93_objective",
    "C93_body_turned",
    "C93_history"
   ],
   "note": ""
  },
  {
   "property": "C94",
   "status": "proved",
   "theorems": [
    "C94_lagrange",
    "C94_meaning",
    "C94_dual",
    "C94_serendipity",
    "C94_serendipity_nonvacuous",
    "C94_midpoint",
    "C94_midpoint_nonvacuous",
    "C94_nodal_values_refuted",
    "C94_sampling_refuted",
    "C94_affine"
   ],
   "note": ""
  },
  {
   "property": "C95",
   "status": "proved",
   "theorems": [
    "C95_choice",
    "C95_rejects",
    "C95_default_rules",
    "C95_default_rules_nonvacuous",
    "C95_stiffness",
    "C95_full_integration",
    "C95_mass",
    "C95_load",
    "C95_orders",
    "C95_mass_refuted",
    "C95_full_integration_refuted",
    "C95_nonvacuous",
    "C95_gradients"
   ],
   "note": ""
  },
  {
   "property": "C96",
   "status": "proved",
   "theorems": [
    "C96_same_residual",
    "C96_same_newton",
    "C96_weak_form",
    "C96_example"
   ],
   "note": ""
  },
  {
   "property": "C97",
   "status": "proved",
   "theorems": [
    "C97_mesh",
    "C97_boundary",
    "C97_assembled",
    "C97_galerkin",
    "C97_unique",
    "C97_run",
    "C97_stencil",
    "C97_cg",
    "C97_symmetric_refuted"
   ],
   "note": ""
  },
  {
   "property": "C98",
   "status": "proved",
   "theorems": [
    "C98_weak_form",
    "C98_solves",
    "C98_one_solution",
    "C98_regular",
    "C98_solver",
    "C98_runs",
    "C98_heat_balance",
    "C98_steady",
    "C98_angle",
    "C98_anisotropy",
    "C98_flux",
    "C98_rectangle",
    "C98_example"
   ],
   "note": ""
  },
  {
   "property": "C99",
   "status": "proved",
   "theorems": [
    "C99_mass",
    "C99_step",
    "C99_steady",
    "C99_latent_heat",
    "C99_runs",
    "C99_conserved",
    "C99_conserved_refuted",
    "C99_rectangle",
    "C99_example"
   ],
   "note": ""
  },
  {
   "property": "C100",
   "status": "proved",
   "theorems": [
    "C100_operators",
    "C100_exact",
    "C100_angle",
    "C100_anisotropy",
    "C100_edges",
    "C100_run",
    "C100_first_pass",
    "C100_later_passes_refuted",
    "C100_heat_balance",
    "C100_whole_grid_refuted",
    "C100_steady",
    "C100_maximum",
    "C100_grid",
    "C100_example"
   ],
   "note": ""
  },
  {
   "property": "C101",
   "status": "proved",
   "theorems": [
    "C101_stress",
    "C101_clamped",
    "C101_run",
    "C101_mechanics",
    "C101_thermoelastic",
    "C101_phases",
    "C101_remelting_refuted",
    "C101_heat",
    "C101_top_refuted"
   ],
   "note": ""
  },
  {
   "property": "C102",
   "status": "proved",
   "theorems": [
    "C102_stress",
    "C102_objective",
    "C102_energy",
    "C102_linear",
    "C102_beam_refuted",
    "C102_density",
    "C102_potential",
    "C102_torque",
    "C102_rigid",
    "C102_traction"
   ],
   "note": ""
  },
  {
   "property": "C103",
   "status": "proved",
   "theorems": [
    "C103_rotation",
    "C103_energy",
    "C103_never_relaxed",
    "C103_stress",
    "C103_objective",
    "C103_moment",
    "C103_noise",
    "C103_mean",
    "C103_potential",
    "C103_shape",
    "C103_bc",
    "C103_passes",
    "C103_posed"
   ],
   "note": ""
  },
  {
   "property": "C104",
   "status": "proved",
   "theorems": [
    "C104_rebuilt",
    "C104_rebuilt_refuted",
    "C104_node",
    "C104_node_refuted",
    "C104_check",
    "C104_unique",
    "C104_finite_difference",
    "C104_limit",
    "C104_manufactured"
   ],
   "note": ""
  },
  {
   "property": "C105",
   "status": "proved",
   "theorems": [
    "C105_l2",
    "C105_h1",
    "C105_triangle",
    "C105_affine",
    "C105_quadratic",
    "C105_quadratic_met",
    "C105_quadratic_refuted",
    "C105_source",
    "C105_run",
    "C105_run_met"
   ],
   "note": ""
  },
  {
   "property": "C106",
   "status": "proved",
   "theorems": [
    "C106_deformed",
    "C106_simplex",
    "C106_affine",
    "C106_target",
    "C106_rate",
    "C106_params",
    "C106_spin",
    "C106_spin_met",
    "C106_area",
    "C106_area_true",
    "C106_met"
   ],
   "note": ""
  },
  {
   "property": "C107",
   "status": "proved",
   "theorems": [
    "C107_pass",
    "C107_nan",
    "C107_exit",
    "C107_fuel",
    "C107_steps",
    "C107_first",
    "C107_forward_refuted",
    "C107_demo"
   ],
   "note": ""
  },
  {
   "property": "C108",
   "status": "proved",
   "theorems": [
    "C108_built",
    "C108_bc",
    "C108_elastic",
    "C108_residual",
    "C108_solves",
    "C108_box"
   ],
   "note": ""
  },
  {
   "property": "C109",
   "status": "proved",
   "theorems": [
    "C109_gradient",
    "C109_chain",
    "C109_batch",
    "C109_objective",
    "C109_rest",
    "C109_moment",
    "C109_power",
    "C109_stored_energy_refuted",
    "C109_loss",
    "C109_fitted",
    "C109_epoch",
    "C109_boundary"
   ],
   "note": ""
  },
  {
   "property": "C110",
   "status": "proved",
   "theorems": [
    "C110_cell_scales",
    "C110_plate_scales",
    "C110_cell",
    "C110_plate",
    "C110_profile",
    "C110_edge_refuted",
    "C110_edge",
    "C110_rigid",
    "C110_half_turn",
    "C110_small",
    "C110_stretch"
   ],
   "note": ""
  },
  {
   "property": "C111",
   "status": "proved",
   "theorems": [
    "C111_program",
    "C111_start",
    "C111_history",
    "C111_solutions",
    "C111_turned"
   ],
   "note": ""
  },
  {
   "property": "C112",
   "status": "proved",
   "theorems": [
    "C112_problems",
    "C112_balance",
    "C112_ends",
    "C112_total",
    "C112_support",
    "C112_stress",
    "C112_clamped",
    "C112_compressed",
    "C112_edges",
    "C112_mesh",
    "C112_displaced"
   ],
   "note": ""
  },
  {
   "property": "C113",
   "status": "proved",
   "theorems": [
    "C113_same_nodes",
    "C113_same_faces",
    "C113_sides",
    "C113_sides_select",
    "C113_sets",
    "C113_printed"
   ],
   "note": ""
  },
  {
   "property": "C114",
   "status": "proved",
   "theorems": [
    "C114_origin",
    "C114_moved",
    "C114_held",
    "C114_ends",
    "C114_stress"
   ],
   "note": ""
  },
  {
   "property": "C115",
   "status": "proved",
   "theorems": [
    "C115_load",
    "C115_start",
    "C115_different"
   ],
   "note": ""
  }
 ]
}