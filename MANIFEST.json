{
 "claims": [
  {
   "property": "C01",
   "status": "proved",
   "theorems": [
    "C01_normalise_exact",
    "C01_normalise_canonical",
    "C01_shrink_alone_any_order",
    "C01_shrink_without_sort_refuted"
   ],
   "note": ""
  },
  {
   "property": "C02",
   "status": "proved",
   "theorems": [
    "C02_cardinal"
   ],
   "note": ""
  },
  {
   "property": "C03",
   "status": "proved",
   "theorems": [
    "C03_difference_seg_seg",
    "C03_difference_segs_seg",
    "C03_difference_seg_segs",
    "C03_difference_segs_segs"
   ],
   "note": ""
  },
  {
   "property": "C04",
   "status": "proved",
   "theorems": [
    "C04_add_segment",
    "C04_add_list",
    "C04_add_unsorted_list_refuted"
   ],
   "note": ""
  },
  {
   "property": "C05",
   "status": "proved",
   "theorems": [
    "C05_sum"
   ],
   "note": ""
  },
  {
   "property": "C06",
   "status": "proved",
   "theorems": [
    "C06_overlap_characterised",
    "C06_overlap_complete_refuted"
   ],
   "note": ""
  },
  {
   "property": "C07",
   "status": "proved",
   "theorems": [
    "C07_split",
    "C07_split_within_cardinal"
   ],
   "note": ""
  },
  {
   "property": "C08",
   "status": "proved",
   "theorems": [
    "C08_extract",
    "C08_extract_empty_end_refuted"
   ],
   "note": ""
  },
  {
   "property": "C09",
   "status": "proved",
   "theorems": [
    "C09_from_logical"
   ],
   "note": ""
  },
  {
   "property": "C10",
   "status": "proved",
   "theorems": [
    "C10_read",
    "C10_write",
    "C10_write_frame",
    "C10_read_back",
    "C10_out_of_bounds_undefined",
    "C10_view_to_view",
    "C10_view_to_view_refuted",
    "C10_vector_read",
    "C10_vector_write"
   ],
   "note": ""
  },
  {
   "property": "C11",
   "status": "proved",
   "theorems": [
    "C11_view_op_matrix",
    "C11_matrix_op_view",
    "C11_view_op_view_same_blocks",
    "C11_view_op_view_refuted"
   ],
   "note": ""
  },
  {
   "property": "C12",
   "status": "proved",
   "theorems": [
    "C12_add_iff_acceptable",
    "C12_outcomes",
    "C12_overlap_exception_refuted"
   ],
   "note": "Acceptance is exact; the exception announced for self-overlap is not always the way of refusing (refutation theorem)."
  },
  {
   "property": "C13",
   "status": "proved",
   "theorems": [
    "C13_no_double_output_no_cycle",
    "C13_add_terminates",
    "C13_inconsistent_intervals_refuted"
   ],
   "note": "Termination needs configuration and velocity intervals that describe the same joints; refutation without it."
  },
  {
   "property": "C14",
   "status": "proved",
   "theorems": [
    "C14_index_sets",
    "C14_unsorted_inputs_refuted"
   ],
   "note": "Exact for sorted inputs; refutation for unsorted inputs."
  },
  {
   "property": "C15",
   "status": "proved",
   "theorems": [
    "C15_computation_order"
   ],
   "note": ""
  },
  {
   "property": "C16",
   "status": "proved",
   "theorems": [
    "C16_solve",
    "C16_solve_depends_on_inputs_only",
    "C16_solve_twice",
    "C16_solve_independent_of_add_order"
   ],
   "note": ""
  },
  {
   "property": "C17",
   "status": "proved",
   "theorems": [
    "C17_dependencies",
    "C17_dof_dependencies",
    "C17_dof_dependencies_no_input_refuted",
    "C17_dependencies_overflow_refuted"
   ],
   "note": "Exact with unbounded counters; refuted with the 32-bit counters of the code."
  },
  {
   "property": "C18",
   "status": "proved",
   "theorems": [
    "C18_jacobian",
    "C18_jacobian_is_derivative"
   ],
   "note": ""
  },
  {
   "property": "C19",
   "status": "proved",
   "theorems": [
    "C19_set_one",
    "C19_set_get_by_constraint",
    "C19_unknown_constraint",
    "C19_set_all",
    "C19_write_back",
    "C19_assertion_one",
    "C19_assertion_all",
    "C19_assertion_write_back",
    "C19_assertions_agree_refuted"
   ],
   "note": ""
  },
  {
   "property": "C20",
   "status": "proved",
   "theorems": [
    "C20_configuration_solved",
    "C20_projected_value",
    "C20_residual_left"
   ],
   "note": ""
  },
  {
   "property": "C21",
   "status": "proved",
   "theorems": [
    "C21_is_satisfied",
    "C21_one_constraint",
    "C21_no_residual_after_solve",
    "C21_satisfied_without_residual",
    "C21_nan_refuted",
    "C21_tiny_threshold_refuted"
   ],
   "note": ""
  },
  {
   "property": "C22",
   "status": "proved",
   "theorems": [
    "C22_comparison",
    "C22_nan_refuted"
   ],
   "note": ""
  },
  {
   "property": "C23",
   "status": "proved",
   "theorems": [
    "C23_masked_rows",
    "C23_level_error",
    "C23_unsatisfiable_refuted"
   ],
   "note": ""
  },
  {
   "property": "C24",
   "status": "proved",
   "theorems": [
    "C24_rows",
    "C24_constraint_sets"
   ],
   "note": ""
  },
  {
   "property": "C25",
   "status": "proved",
   "theorems": [
    "C25_from_config",
    "C25_check"
   ],
   "note": ""
  },
  {
   "property": "C26",
   "status": "proved",
   "theorems": [
    "C26_meaning",
    "C26_equivalence",
    "C26_implicit_symmetric",
    "C26_mask_ignored"
   ],
   "note": ""
  },
  {
   "property": "C27",
   "status": "proved",
   "theorems": [
    "C27_layout"
   ],
   "note": ""
  },
  {
   "property": "C28",
   "status": "proved",
   "theorems": [
    "C28_substitution_numeric",
    "C28_substitution_explicit",
    "C28_substitution_unknown",
    "C28_substitution_refuted",
    "C28_set_get",
    "C28_unknown"
   ],
   "note": "Holds except for shadowed explicit constraints (C28_substitution_refuted)."
  },
  {
   "property": "C29",
   "status": "proved",
   "theorems": [
    "C29_substitution",
    "C29_substitution_refuted",
    "C29_one_level",
    "C29_levels",
    "C29_refuted"
   ],
   "note": "Proved where it holds, refuted for several non-empty levels (C29_refuted) and for mixed explicit/numerical constraints (C29_substitution_refuted)."
  },
  {
   "property": "C30",
   "status": "proved",
   "theorems": [
    "C30_substitution",
    "C30_add_resets",
    "C30_update_resets",
    "C30_survive_refuted"
   ],
   "note": "The user's expectation is refuted for numerical constraints; what the code does is proved for both solvers."
  },
  {
   "property": "C31",
   "status": "proved",
   "theorems": [
    "C31_satisfied",
    "C31_nan_refuted",
    "C31_underflow_refuted"
   ],
   "note": ""
  },
  {
   "property": "C32",
   "status": "proved",
   "theorems": [
    "C32_per_constraint",
    "C32_test",
    "C32_unknown",
    "C32_inequality_refuted"
   ],
   "note": ""
  },
  {
   "property": "C33",
   "status": "proved",
   "theorems": [
    "C33_bounds",
    "C33_idempotent",
    "C33_in_place",
    "C33_base",
    "C33_device",
    "C33_joint_flags",
    "C33_flag_lost_refuted",
    "C33_nan_refuted",
    "C33_columns",
    "C33_gradient"
   ],
   "note": ""
  },
  {
   "property": "C34",
   "status": "proved",
   "theorems": [
    "C34_result",
    "C34_success_satisfied",
    "C34_zero_threshold_refuted"
   ],
   "note": ""
  },
  {
   "property": "C35",
   "status": "proved",
   "theorems": [
    "C35_constant",
    "C35_fixed_sequence",
    "C35_fixed_sequence_increases",
    "C35_error_norm_range",
    "C35_error_norm_default",
    "C35_error_norm_refuted",
    "C35_backtracking",
    "C35_backtracking_trials",
    "C35_slope"
   ],
   "note": ""
  },
  {
   "property": "C36",
   "status": "proved",
   "theorems": [
    "C36_zero_outside",
    "C36_free_set",
    "C36_expand",
    "C36_fresh_refuted"
   ],
   "note": "Proved; C36_fresh_refuted shows the size before the first update."
  },
  {
   "property": "C37",
   "status": "proved",
   "theorems": [
    "C37_hierarchical",
    "C37_substitution"
   ],
   "note": ""
  },
  {
   "property": "C38",
   "status": "proved",
   "theorems": [
    "C38_lexicographic",
    "C38_level_by_level",
    "C38_priority",
    "C38_minimal_norm",
    "C38_one_level",
    "C38_previous_direction_refuted",
    "C38_total",
    "C38_sigma_one_level",
    "C38_sigma_refuted",
    "C38_case",
    "C38_decomposition",
    "C38_defined",
    "C38_function"
   ],
   "note": "exact arithmetic; decompositions as a relation, which every real matrix meets (C38_decomposition); sigma_ only for the index read"
  },
  {
   "property": "C39",
   "status": "proved",
   "theorems": [
    "C39_merge",
    "C39_merge_substitution",
    "C39_submanifold",
    "C39_submanifold_functions",
    "C39_submanifold_solutions",
    "C39_submanifold_direction_refuted",
    "C39_submanifold_comparison_refuted",
    "C39_submanifold_rhs_refuted",
    "C39_submanifold_optional_refuted",
    "C39_submanifold_substitution"
   ],
   "note": ""
  },
  {
   "property": "C40",
   "status": "proved",
   "theorems": [
    "C40_hierarchical",
    "C40_by_substitution",
    "C40_aliased_refuted",
    "C40_second_refuted"
   ],
   "note": "proved with refutations of independence for BySubstitution; pointers as indices in lists of objects"
  },
  {
   "property": "C41",
   "status": "proved",
   "theorems": [
    "C41_add",
    "C41_state"
   ],
   "note": ""
  },
  {
   "property": "C42",
   "status": "proved",
   "theorems": [
    "C42_outcome",
    "C42_explicit_satisfied",
    "C42_hypothesis",
    "C42_satisfied_start_refuted"
   ],
   "note": ""
  },
  {
   "property": "C43",
   "status": "proved",
   "theorems": [
    "C43_outcome",
    "C43_best_lost_refuted",
    "C43_exception_refuted"
   ],
   "note": ""
  },
  {
   "property": "C44",
   "status": "proved",
   "theorems": [
    "C44_total",
    "C44_derivative",
    "C44_dropped_rows"
   ],
   "note": "Sizes, values (with the total Jacobian of C18) and, in vector spaces, the derivative along curves; rows left out are shown not to vary with free variables. The Jacobians of the constraints and floating point are not modelled here."
  },
  {
   "property": "C45",
   "status": "proved",
   "theorems": [
    "C45_implicit_dof",
    "C45_empty_level",
    "C45_refuted"
   ],
   "note": "Proved without empty level; C45_empty_level and C45_refuted show the undefined case."
  },
  {
   "property": "C46",
   "status": "proved",
   "theorems": [
    "C46_projection",
    "C46_bypass",
    "C46_tangent_refuted",
    "C46_case"
   ],
   "note": "exact arithmetic; the reduced Jacobian is a parameter (C44)"
  },
  {
   "property": "C47",
   "status": "proved",
   "theorems": [
    "C47_save_load",
    "C47_kept",
    "C47_jacobian_kept",
    "C47_jacobian_refuted"
   ],
   "note": "Proved for the fields the archive handles; C47_jacobian_refuted shows the loaded solver that cannot compute its Jacobian."
  },
  {
   "property": "C48",
   "status": "proved",
   "theorems": [
    "C48_value",
    "C48_derivative",
    "C48_derivative_refuted"
   ],
   "note": "the real number model ignores rounding"
  },
  {
   "property": "C49",
   "status": "proved",
   "theorems": [
    "C49_stack",
    "C49_merge"
   ],
   "note": ""
  },
  {
   "property": "C50",
   "status": "proved",
   "theorems": [
    "C50_accuracy",
    "C50_float_refuted",
    "C50_float_step",
    "C50_robot_accuracy",
    "C50_robot_step_refuted",
    "C50_affine",
    "C50_quadratic",
    "C50_converges",
    "C50_other_columns",
    "C50_robot"
   ],
   "note": "over the reals, rounding errors of the values in the bound of C50_accuracy, binary64 arithmetic for C50_float_refuted; the Lie group integration is an arbitrary function, except in C50_robot_step_refuted"
  },
  {
   "property": "C51",
   "status": "proved",
   "theorems": [
    "C51_active",
    "C51_relative_pose",
    "C51_agree",
    "C51_loop_refuted",
    "C51_intervals",
    "C51_independent",
    "C51_inputs_suffice",
    "C51_contact",
    "C51_contact_inputs",
    "C51_contact_inputs_refuted"
   ],
   "note": "setActiveParameters, relPoseConfVariables/relPoseVelVariables, contact inputs; poses in an abstract group. Floats and the numerical joint transforms are not modelled."
  },
  {
   "property": "C52",
   "status": "proved",
   "theorems": [
    "C52_output",
    "C52_rhs_roundtrip",
    "C52_explicit_rhs",
    "C52_explicit_rhs_refuted"
   ],
   "note": ""
  },
  {
   "property": "C53",
   "status": "proved",
   "theorems": [
    "C53_value",
    "C53_jacobian",
    "C53_setters",
    "C53_reference",
    "C53_reference_inverse",
    "C53_reference_refuted",
    "C53_null_joint_refuted"
   ],
   "note": ""
  },
  {
   "property": "C54",
   "status": "proved",
   "theorems": [
    "C54_jacobian",
    "C54_jacobian_output",
    "C54_parent_angular",
    "C54_parent_linear",
    "C54_parent_refuted",
    "C54_r3xso3_refuted"
   ],
   "note": ""
  },
  {
   "property": "C55",
   "status": "proved",
   "theorems": [
    "C55_derivative",
    "C55_function_value",
    "C55_function_jacobian",
    "C55_com_between_feet_value",
    "C55_com_between_feet_jacobian",
    "C55_rotation_refuted",
    "C55_point_refuted",
    "C55_case"
   ],
   "note": "one column of the Jacobian; FunctionExp and JointFrame: see C78; exact real arithmetic, isZero exact"
  },
  {
   "property": "C56",
   "status": "proved",
   "theorems": [
    "C56_value",
    "C56_cross",
    "C56_jacobian",
    "C56_point_refuted",
    "C56_com_refuted",
    "C56_uninitialised_refuted",
    "C56_stale_refuted",
    "C56_case"
   ],
   "note": "MatrixOfExpressions: see C61; each PointCom has its own center of mass computation"
  },
  {
   "property": "C57",
   "status": "proved",
   "theorems": [
    "C57_selection",
    "C57_round_trip",
    "C57_cell",
    "C57_beyond_refuted",
    "C57_radius",
    "C57_point",
    "C57_negative_refuted",
    "C57_pose",
    "C57_explicit",
    "C57_pairs_differ",
    "C57_overlap_refuted",
    "C57_case"
   ],
   "note": "distances between surfaces are parameters (C58 for the polygon distance); real arithmetic"
  },
  {
   "property": "C58",
   "status": "proved",
   "theorems": [
    "C58_polygon_frame",
    "C58_inside_test",
    "C58_signed_distance",
    "C58_reverse",
    "C58_inside_test_in_world",
    "C58_signed_distance_in_world",
    "C58_intersection",
    "C58_closest_pair",
    "C58_point_frame",
    "C58_segment_frame",
    "C58_segment_distance_refuted",
    "C58_segment_reverse_refuted",
    "C58_assertions_check_convexity_refuted",
    "C58_closest_point_refuted",
    "C58_closest_point",
    "C58_aligned_frame_refuted"
   ],
   "note": ""
  },
  {
   "property": "C59",
   "status": "proved",
   "theorems": [
    "C59_points_value",
    "C59_bodies_value",
    "C59_jacobian_alone",
    "C59_jacobian_other_configuration",
    "C59_points_derivative",
    "C59_points_derivative_origin",
    "C59_bodies_derivative",
    "C59_objects_derivative",
    "C59_history_refuted",
    "C59_no_second_refuted"
   ],
   "note": "forward kinematics and nearest point computation are parameters"
  },
  {
   "property": "C60",
   "status": "proved",
   "theorems": [
    "C60_value_is_smallest_unbalance",
    "C60_twice_jacobian_is_derivative",
    "C60_jacobian_is_derivative_refuted",
    "C60_jacobian_without_value_refuted"
   ],
   "note": ""
  },
  {
   "property": "C61",
   "status": "proved",
   "theorems": [
    "C61_pseudo_inverse",
    "C61_differentiable_iff",
    "C61_pinv_jacobian",
    "C61_rank_jump_refuted",
    "C61_static_value",
    "C61_negative_force_refuted",
    "C61_static_jacobian",
    "C61_cache",
    "C61_copy_refuted"
   ],
   "note": "Golub-Pereyra formula, from Wedin's exact identity; any ordered field, any sizes; the decomposition at each point is arbitrary. Refuted parts: C61_rank_jump_refuted, C61_negative_force_refuted, C61_copy_refuted. Examples: PinvExamples.example_static (hypotheses of the Jacobian theorem on a path with u = (3,-4))."
  },
  {
   "property": "C62",
   "status": "proved",
   "theorems": [
    "C62_whole",
    "C62_partial_refuted",
    "C62_extra_refuted",
    "C62_ranks"
   ],
   "note": ""
  },
  {
   "property": "C63",
   "status": "proved",
   "theorems": [
    "C63_symmetric",
    "C63_reflexive",
    "C63_sound",
    "C63_constant",
    "C63_transformation",
    "C63_contact",
    "C63_lost_constraint"
   ],
   "note": "comparisons of scalars decide equality (no NaN)"
  },
  {
   "property": "C64",
   "status": "proved",
   "theorems": [
    "C64_equivalence",
    "C64_after_solve",
    "C64_active",
    "C64_blocks",
    "C64_vector_space",
    "C64_several_factors_refuted"
   ],
   "note": "the blocks of the other output spaces are abstract here, see C77; the difference and sum of the output space are assumed inverse of each other where used"
  },
  {
   "property": "C65",
   "status": "proved",
   "theorems": [
    "C65_subset",
    "C65_subset_active",
    "C65_columns_refuted"
   ],
   "note": ""
  },
  {
   "property": "C66",
   "status": "proved",
   "theorems": [
    "C66_derivative",
    "C66_active"
   ],
   "note": "over the reals"
  },
  {
   "property": "C67",
   "status": "proved",
   "theorems": [
    "C67_difference",
    "C67_difference_active",
    "C67_overlap_jacobian_refuted",
    "C67_overlap_active_refuted",
    "C67_active_set",
    "C67_saturated_active_refuted"
   ],
   "note": ""
  },
  {
   "property": "C68",
   "status": "proved",
   "theorems": [
    "C68_copy",
    "C68_add",
    "C68_add_explicit",
    "C68_settled",
    "C68_run",
    "C68_copy_spoiled_refuted",
    "C68_offset_refuted"
   ],
   "note": "HierarchicalIterative/BySubstitution objects reduced to the members involved in sharing"
  },
  {
   "property": "C69",
   "status": "proved",
   "theorems": [
    "C69_log_rotation",
    "C69_log_small",
    "C69_log_half_turn",
    "C69_half_turn_refuted"
   ],
   "note": ""
  },
  {
   "property": "C70",
   "status": "proved",
   "theorems": [
    "C70_JlogSO3",
    "C70_computeJlog"
   ],
   "note": ""
  },
  {
   "property": "C71",
   "status": "proved",
   "theorems": [
    "C71_logSE3",
    "C71_JlogSE3"
   ],
   "note": ""
  },
  {
   "property": "C72",
   "status": "proved",
   "theorems": [
    "C72_value",
    "C72_jacobian",
    "C72_world_refuted",
    "C72_short_mask_refuted",
    "C72_long_mask_refuted"
   ],
   "note": ""
  },
  {
   "property": "C73",
   "status": "proved",
   "theorems": [
    "C73_distance",
    "C73_value",
    "C73_jacobian",
    "C73_jacobian_vector",
    "C73_rotation_refuted",
    "C73_weights",
    "C73_inactive_value",
    "C73_inactive_column",
    "C73_mask"
   ],
   "note": ""
  },
  {
   "property": "C74",
   "status": "proved",
   "theorems": [
    "C74_built",
    "C74_value",
    "C74_frame",
    "C74_zero",
    "C74_jacobian",
    "C74_contact_points",
    "C74_points_refuted",
    "C74_extra_refuted",
    "C74_line_refuted",
    "C74_null_refuted",
    "C74_thin_floor",
    "C74_thin_floor_refuted"
   ],
   "note": ""
  },
  {
   "property": "C75",
   "status": "proved",
   "theorems": [
    "C75_accepted",
    "C75_value",
    "C75_function",
    "C75_type_change_refuted",
    "C75_no_function_refuted",
    "C75_solver",
    "C75_history",
    "C75_substitution",
    "C75_substitution_refuted",
    "C75_extract",
    "C75_extract_substitution"
   ],
   "note": ""
  },
  {
   "property": "C76",
   "status": "proved",
   "theorems": [
    "C76_functions",
    "C76_implicit_function",
    "C76_transformation",
    "C76_transformation_refuted",
    "C76_constraint",
    "C76_constraint_refuted",
    "C76_bounds_refuted"
   ],
   "note": ""
  },
  {
   "property": "C77",
   "status": "proved",
   "theorems": [
    "C77_vector",
    "C77_so2",
    "C77_r2so2",
    "C77_se2",
    "C77_se2_refuted",
    "C77_se3",
    "C77_r3so3",
    "C77_so3",
    "C77_so3_refuted"
   ],
   "note": ""
  },
  {
   "property": "C78",
   "status": "proved",
   "theorems": [
    "C78_value",
    "C78_jacobian",
    "C78_joint_frame",
    "C78_function",
    "C78_mask_refuted",
    "C78_function_refuted",
    "C78_cache"
   ],
   "note": ""
  },
  {
   "property": "C79",
   "status": "proved",
   "theorems": [
    "C79_value",
    "C79_determinant",
    "C79_singular",
    "C79_jacobian",
    "C79_rows_refuted"
   ],
   "note": ""
  },
  {
   "property": "C80",
   "status": "proved",
   "theorems": [
    "C80_value",
    "C80_value_size_refuted",
    "C80_residual_error",
    "C80_dimension",
    "C80_reduced_jacobian",
    "C80_satisfied_error",
    "C80_satisfied",
    "C80_minus_one_refuted",
    "C80_error_size",
    "C80_error_size_refuted",
    "C80_active_parameters"
   ],
   "note": ""
  },
  {
   "property": "C81",
   "status": "proved",
   "theorems": [
    "C81_integrate",
    "C81_integrate_explicit",
    "C81_output_bounds_refuted",
    "C81_report_refuted",
    "C81_project",
    "C81_project_none",
    "C81_project_bound_refuted",
    "C81_project_explicit_refuted",
    "C81_project_case"
   ],
   "note": ""
  },
  {
   "property": "C82",
   "status": "proved",
   "theorems": [
    "C82_solved",
    "C82_full_step",
    "C82_infeasible",
    "C82_by_substitution",
    "C82_scale_refuted",
    "C82_constant",
    "C82_fixed_sequence",
    "C82_error_norm",
    "C82_backtracking",
    "C82_backtracking_full",
    "C82_backtracking_refuted"
   ],
   "note": ""
  },
  {
   "property": "C83",
   "status": "proved",
   "theorems": [
    "C83_converges",
    "C83_by_substitution",
    "C83_cycle_refuted",
    "C83_error_norm",
    "C83_backtracking"
   ],
   "note": "exact arithmetic, the Lie group structure of the configuration space is not included; the curvature and the bound of the inverse are given"
  },
  {
   "property": "C84",
   "status": "proved",
   "theorems": [
    "C84_result",
    "C84_iterates",
    "C84_norm_free",
    "C84_saturation_refuted",
    "C84_backtracking_refuted",
    "C84_error_norm_refuted",
    "C84_searches"
   ],
   "note": ""
  },
  {
   "property": "C85",
   "status": "proved",
   "theorems": [
    "C85_closer",
    "C85_closest",
    "C85_ends",
    "C85_bounds",
    "C85_feasible_refuted"
   ],
   "note": ""
  },
  {
   "property": "C86",
   "status": "proved",
   "theorems": [
    "C86_full_step",
    "C86_from_solution",
    "C86_fixed_sequence",
    "C86_line",
    "C86_default_refuted",
    "C86_regular_refuted"
   ],
   "note": ""
  },
  {
   "property": "C87",
   "status": "proved",
   "theorems": [
    "C87_attracts",
    "C87_by_substitution"
   ],
   "note": "exact arithmetic, the Lie group structure of the configuration space is not included; the factors m of the line searches are those of C82 and C83"
  },
  {
   "property": "C88",
   "status": "proved",
   "theorems": [
    "C88_within",
    "C88_searches",
    "C88_start_refuted",
    "C88_one_row",
    "C88_several_rows_refuted",
    "C88_equal_bounds_refuted",
    "C88_priority_refuted"
   ],
   "note": "exact arithmetic; bounds on the variables of a vector space; the statement says where the result does not extend, each with a refutation"
  },
  {
   "property": "C89",
   "status": "proved",
   "theorems": [
    "C89_within",
    "C89_searches",
    "C89_one_row",
    "C89_explicit_bounds_refuted"
   ],
   "note": "exact arithmetic; bounds on the variables of a vector space; the bounds of explicit variables are refuted"
  },
  {
   "property": "C90",
   "status": "proved",
   "theorems": [
    "C90_per_constraint",
    "C90_numeric",
    "C90_explicit",
    "C90_unknown",
    "C90_shared_function_refuted"
   ],
   "note": "squared norms are any function of the error; residuals not NaN for the equivalence"
  },
  {
   "property": "C91",
   "status": "proved",
   "theorems": [
    "C91_value",
    "C91_negative",
    "C91_equal",
    "C91_variable_kept_refuted"
   ],
   "note": ""
  },
  {
   "property": "C92",
   "status": "proved",
   "theorems": [
    "C92_value",
    "C92_between",
    "C92_sloped_refuted",
    "C92_height_refuted",
    "C92_jacobian",
    "C92_extra_refuted",
    "C92_short_mask",
    "C92_long_mask_refuted"
   ],
   "note": "exact real arithmetic; the mask is read as by a std::vector without check"
  },
  {
   "property": "C93",
   "status": "proved",
   "theorems": [
    "C93_matrix",
    "C93_force_data",
    "C93_nb_contacts",
    "C93_no_contact_refuted",
    "C93_jacobian",
    "C93_force_jacobian",
    "C93_equilibrium",
    "C93_support",
    "C93_downward",
    "C93_qp",
    "C93_three_contacts",
    "C93_span_refuted"
   ],
   "note": ""
  },
  {
   "property": "C94",
   "status": "proved",
   "theorems": [
    "C94_transformation",
    "C94_contact",
    "C94_reported",
    "C94_constrained",
    "C94_half_turn_refuted",
    "C94_inequality_refuted",
    "C94_constant",
    "C94_constant_joint",
    "C94_segment_refuted",
    "C94_locked",
    "C94_locked_part",
    "C94_partial_name_refuted",
    "C94_extra_name_refuted"
   ],
   "note": ""
  },
  {
   "property": "C95",
   "status": "proved",
   "theorems": [
    "C95_defined",
    "C95_bounds",
    "C95_upper_refuted",
    "C95_derivative"
   ],
   "note": ""
  }
 ]
}