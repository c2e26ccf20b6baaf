{
 "claims": [
  {
   "property": "C01",
   "status": "proved",
   "theorems": [
    "C01_ranges_contiguous",
    "C01_entries_partitioned",
    "C01_duplicate_refused"
   ],
   "note": ""
  },
  {
   "property": "C02",
   "status": "proved",
   "theorems": [
    "C02_adding_disturbs_nothing",
    "C02_writing_one_label",
    "C02_assigning_all",
    "C02_write_accepted"
   ],
   "note": ""
  },
  {
   "property": "C03",
   "status": "proved",
   "theorems": [
    "C03_variable_structure",
    "C03_no_joints_refused",
    "C03_label_scans"
   ],
   "note": ""
  },
  {
   "property": "C04",
   "status": "proved",
   "theorems": [
    "C04_initial_state_vector",
    "C04_state_guess",
    "C04_reading_a_vector",
    "C04_round_trip",
    "C04_round_trip_identity"
   ],
   "note": ""
  },
  {
   "property": "C05",
   "status": "proved",
   "theorems": [
    "C05_control_guess",
    "C05_reading_a_vector",
    "C05_round_trip"
   ],
   "note": ""
  },
  {
   "property": "C06",
   "status": "proved",
   "theorems": [
    "C06_tanh_activation",
    "C06_tanh_range",
    "C06_scaling_and_disable"
   ],
   "note": ""
  },
  {
   "property": "C07",
   "status": "proved",
   "theorems": [
    "C07_sech_activation",
    "C07_sech_range"
   ],
   "note": ""
  },
  {
   "property": "C08",
   "status": "proved",
   "theorems": [
    "C08_normalised_is_unit",
    "C08_normalised_idempotent",
    "C08_jacobian_exact",
    "C08_same_as_solver"
   ],
   "note": ""
  },
  {
   "property": "C09",
   "status": "proved",
   "theorems": [
    "C09_rotated_vector_jacobian",
    "C09_expression_is_rotation"
   ],
   "note": ""
  },
  {
   "property": "C10",
   "status": "proved",
   "theorems": [
    "C10_maps_mutually_inverse",
    "C10_scaled_by_squared_norm",
    "C10_tangent_to_sphere",
    "C10_bilinear_jacobians_exact",
    "C10_body_angular_velocity"
   ],
   "note": ""
  },
  {
   "property": "C11",
   "status": "proved",
   "theorems": [
    "C11_force_control_exact",
    "C11_force_control_feasible",
    "C11_patterns_fit",
    "C11_force_control_exact_built"
   ],
   "note": ""
  },
  {
   "property": "C12",
   "status": "proved",
   "theorems": [
    "C12_friction_exact",
    "C12_friction_feasible",
    "C12_set_friction"
   ],
   "note": ""
  },
  {
   "property": "C13",
   "status": "proved",
   "theorems": [
    "C13_normal_velocity_exact",
    "C13_normal_velocity_feasible",
    "C13_no_penetration_at_ground"
   ],
   "note": ""
  },
  {
   "property": "C14",
   "status": "partial",
   "theorems": [
    "C14_planar_velocity_exact_partial",
    "C14_planar_velocity_hessian_when",
    "C14_planar_velocity_hessian_multipliers_refuted",
    "C14_planar_velocity_hessian_stale_refuted",
    "C14_planar_velocity_feasible",
    "C14_no_sliding_at_ground"
   ],
   "note": "Value, Jacobians, control/mixed Hessians and sparsity are exact; the state Hessian of the code is wrong (multipliers 1 and 2 paired with the wrong limits, stale point height): refuted with two witnesses, and the exact condition under which it is right is proved."
  },
  {
   "property": "C15",
   "status": "proved",
   "theorems": [
    "C15_complementarity_exact",
    "C15_planar_complementarity_exact",
    "C15_complementarity_feasible",
    "C15_planar_complementarity_feasible",
    "C15_complementarity_exact_built"
   ],
   "note": ""
  },
  {
   "property": "C16",
   "status": "proved",
   "theorems": [
    "C16_dynamical_complementarity_exact",
    "C16_decay",
    "C16_dynamical_complementarity_exact_built"
   ],
   "note": ""
  },
  {
   "property": "C17",
   "status": "proved",
   "theorems": [
    "C17_quaternion_norm_exact",
    "C17_zero_iff_unit",
    "C17_tolerance_band",
    "C17_set_tolerance"
   ],
   "note": ""
  },
  {
   "property": "C18",
   "status": "proved",
   "theorems": [
    "C18_feet_height_exact",
    "C18_feet_height_feasible",
    "C18_feet_height_exact_built"
   ],
   "note": ""
  },
  {
   "property": "C19",
   "status": "partial",
   "theorems": [
    "C19_dynamics_law",
    "C19_dynamics_law_complete",
    "C19_total_mass",
    "C19_state_jacobian",
    "C19_control_jacobian",
    "C19_state_hessian",
    "C19_control_hessian",
    "C19_mixed_hessian",
    "C19_layout_built",
    "C19_declared_state_pattern",
    "C19_state_sparsity_refuted",
    "C19_stale_block_refuted"
   ],
   "note": "Law, Jacobians and Hessians (given the library's rotation derivatives, C45) proved exact for every number of points and joints and every history; the layout hypothesis is discharged for the structure the solver builds. The declared state-Jacobian sparsity is refuted: it misses the (fz,fz) entries dissipation*(activation-1) and declares a quaternion block that is never written (C19_state_sparsity_refuted, C19_stale_block_refuted); every other non-zero entry is covered (C19_declared_state_pattern)."
  },
  {
   "property": "C20",
   "status": "proved",
   "theorems": [
    "C20_swing_exact",
    "C20_complementarity_exact",
    "C20_swing_nonnegative",
    "C20_complementarity_nonnegative"
   ],
   "note": ""
  },
  {
   "property": "C21",
   "status": "partial",
   "theorems": [
    "C21_phantom_value_and_gradient_partial",
    "C21_phantom_hessian_iff",
    "C21_phantom_hessian_refuted"
   ],
   "note": "Value, gradient, control/mixed Hessians exact. The state Hessian in the code misses a factor fz (PhantomForcesCost.cpp:138): refuted with a witness; the exact condition under which it is right is proved as an iff."
  },
  {
   "property": "C22",
   "status": "proved",
   "theorems": [
    "C22_force_mean_exact",
    "C22_force_ratio_exact",
    "C22_force_mean_zero_iff",
    "C22_force_ratio_zero_iff",
    "C22_force_mean_exact_built",
    "C22_force_ratio_exact_built"
   ],
   "note": ""
  },
  {
   "property": "C23",
   "status": "proved",
   "theorems": [
    "C23_mean_point_exact",
    "C23_mean_point_invalid",
    "C23_feet_distance_exact",
    "C23_feet_distance_zero_iff",
    "C23_mean_point_exact_built",
    "C23_feet_distance_exact_built"
   ],
   "note": ""
  },
  {
   "property": "C24",
   "status": "partial",
   "theorems": [
    "C24_foot_yaw_exact",
    "C24_foot_yaw_zero_partial",
    "C24_foot_yaw_zero_refuted"
   ],
   "note": "Derivatives exact for every foot and history. Zero at the desired yaw proved for feet whose selected edges are axis aligned; refuted for a tilted foot (the code subtracts the construction yaw instead of adding it)."
  },
  {
   "property": "C25",
   "status": "proved",
   "theorems": [
    "C25_postural_exact",
    "C25_postural_zero_iff"
   ],
   "note": ""
  },
  {
   "property": "C26",
   "status": "proved",
   "theorems": [
    "C26_acceptance",
    "C26_corners",
    "C26_queries_need_set",
    "C26_rigid_rectangle"
   ],
   "note": ""
  },
  {
   "property": "C27",
   "status": "proved",
   "theorems": [
    "C27_ratios"
   ],
   "note": ""
  },
  {
   "property": "C28",
   "status": "partial",
   "theorems": [
    "C28_wrench_partial",
    "C28_normal_forces_nonneg",
    "C28_corner_loses_yaw_refuted"
   ],
   "note": "The per-corner forces reproduce force, CoP moments for >=3 active corners exactly, with explicit residuals otherwise; a corner CoP loses the yaw moment (refuted with a witness)."
  },
  {
   "property": "C29",
   "status": "proved",
   "theorems": [
    "C29_reference",
    "C29_weight",
    "C29_weight_zero_iff_inactive",
    "C29_weight_increasing",
    "C29_instant_range_divides_by_zero"
   ],
   "note": ""
  },
  {
   "property": "C30",
   "status": "proved",
   "theorems": [
    "C30_shared_elements",
    "C30_defined_iff_in_bounds",
    "C30_read_back",
    "C30_default_constructed_has_no_objects"
   ],
   "note": ""
  },
  {
   "property": "C31",
   "status": "partial",
   "theorems": [
    "C31_accepted_iff",
    "C31_accepted_documented",
    "C31_nan_horizon_accepted_refuted",
    "C31_zero_horizon_accepted_refuted",
    "C31_missing_references_refuted",
    "C31_unrelated_reference_required_refuted"
   ],
   "note": "Acceptance is proved to be exactly the documented ranges (iff) for structures without NaN. Refuted with witnesses: NaN horizon accepted, zero horizon accepted, missing references of active costs/target constraint accepted, unrelated reference required."
  },
  {
   "property": "C32",
   "status": "proved",
   "theorems": [
    "C32_rejected_unchanged",
    "C32_accepted_stored",
    "C32_history_independent",
    "C32_history",
    "C32_constructor"
   ],
   "note": ""
  },
  {
   "property": "C33",
   "status": "partial",
   "theorems": [
    "C33_out_of_bounds_iff",
    "C33_always_in_bounds_refuted",
    "C33_no_out_of_bounds_partial"
   ],
   "note": "Exact characterisation: out of bounds iff there are fewer velocity limits than position limits; the unconditional claim is refuted."
  },
  {
   "property": "C34",
   "status": "proved",
   "theorems": [
    "C34_refused_before_settings",
    "C34_invalid_arguments_refused",
    "C34_settings_accepted",
    "C34_tools_used",
    "C34_tools_accepted",
    "C34_infinities",
    "C34_no_undefined_behaviour",
    "C34_initial_state",
    "C34_solve_sequence",
    "C34_failed_settings_leave_a_mixture_refuted"
   ],
   "note": "Refusals for every history; sequence and absence of undefined behaviour for histories that keep the numbers of joints and points. Finding (refuted): a specifySettings that fails half way leaves a solver that goes on with a mixture of old external solver and new problem."
  },
  {
   "property": "C35",
   "status": "proved",
   "theorems": [
    "C35_guess_used",
    "C35_consumed_by_success",
    "C35_guess_keeps_old_structure_refuted"
   ],
   "note": "For histories that keep the numbers of joints and points; across a change of them a pending guess is used with the old variable structure (refuted)."
  },
  {
   "property": "C36",
   "status": "partial",
   "theorems": [
    "C36_control_answers",
    "C36_control_lower_below_upper",
    "C36_state_lower_below_upper",
    "C36_points_frozen",
    "C36_joints_limits",
    "C36_negative_force_derivative_refuted",
    "C36_frozen_from_the_start_refuted",
    "C36_active_part"
   ],
   "note": "Proved for accepted settings with a non negative force derivative bound, finite references and non negative tolerance. Refuted: forceMaximumDerivative is not validated (negative crosses the bounds); active part measured from time 0, not from the initial time, so a problem starting late is frozen from the start."
  },
  {
   "property": "C37",
   "status": "proved",
   "theorems": [
    "C37_state_lower_answers",
    "C37_state_upper_answers",
    "C37_minimum_height_dropped_refuted"
   ],
   "note": "Finding: inside the box the minimum CoM height is dropped (refuted with a witness)."
  },
  {
   "property": "C38",
   "status": "partial",
   "theorems": [
    "C38_closest_index",
    "C38_nearest_unless_within_tolerance",
    "C38_nearest_for_separated_knots",
    "C38_history",
    "C38_timings_stored",
    "C38_timings_exact_if_not_fewer",
    "C38_failed_timings_change_nothing",
    "C38_stale_knots_refuted",
    "C38_nan_query_out_of_bounds_refuted",
    "C38_empty_timings_out_of_bounds_refuted"
   ],
   "note": "Search proved for every non-empty list, finite time and history. Refuted: after setting fewer timings than before, stale knots remain and are served; a NaN time and empty timings read outside the container."
  },
  {
   "property": "C39",
   "status": "partial",
   "theorems": [
    "C39_never_stale",
    "C39_never_stale_gravity",
    "C39_zero_tolerance_exact",
    "C39_failed_query_harmless",
    "C39_base_transform",
    "C39_tolerance",
    "C39_reload_stale_refuted",
    "C39_gravity_drift_refuted",
    "C39_base_transform_after_refused_state_refuted"
   ],
   "note": "Never stale (within tolerance) for every history of queries/updates/gravity/tolerance/base changes; exact at zero tolerance. Refuted: reloading a model, sub-tolerance gravity drift, and the base transform after a refused state."
  },
  {
   "property": "C40",
   "status": "partial",
   "theorems": [
    "C40_terminates_in_band",
    "C40_returned_pose_below_ground_refuted",
    "C40_no_points_diverges_refuted",
    "C40_refusal"
   ],
   "note": "Termination and the band proved for every base pose when there is at least one contact point; refuted: without points the recursion never ends; the returned base pose is 1e-8..2e-8 below the ground (recorded points are 2e-8 above those of the pose)."
  },
  {
   "property": "C41",
   "status": "partial",
   "theorems": [
    "C41_kinematics",
    "C41_success",
    "C41_weight_is_supported",
    "C41_points_push",
    "C41_static_balance_partial",
    "C41_aligned_feet_refuted"
   ],
   "note": "Weight supported up to the thresholds of RectangularFoot for every placement, exact static balance for aligned feet with the CoM over them; refuted: laterally aligned CoM and feet give NaN forces with a true answer."
  },
  {
   "property": "C42",
   "status": "proved",
   "theorems": [
    "C42_rigid_and_history_free",
    "C42_same_answer",
    "C42_invalid_reference_refuted",
    "C42_caller_writes_refuted"
   ],
   "note": "Also refuted: an invalid reference is reported as valid; the returned reference is writable and forces written by the caller persist."
  },
  {
   "property": "C43",
   "status": "proved",
   "theorems": [
    "C43_invariant",
    "C43_switch",
    "C43_plan",
    "C43_target_seen",
    "C43_progress",
    "C43_initialize",
    "C43_not_initialized",
    "C43_refusal_keeps",
    "C43_defined",
    "C43_negative_duration_refuted"
   ],
   "note": "For non negative step duration, horizon and elapsed times (a negative step duration is accepted by initialize and refutes well-formedness); progress (liveness) is proved too."
  },
  {
   "property": "C44",
   "status": "proved",
   "theorems": [
    "C44_history_values",
    "C44_next_evaluation",
    "C44_evaluations_do_not_interfere",
    "C44_empty_assignment_refuted"
   ],
   "note": "Proved for every history of the modelled calls (one thread, unbounded counters). Handle assignment a = b is Copy b; Drop a; handles kept in the type information are extra copies. Finding, with witness: assigning an empty expression of another type returns the caller id but keeps using it (ExpressionImplementation.h:692-706), after which an evaluation can be stale; that call is outside the modelled history language."
  },
  {
   "property": "C45",
   "status": "partial",
   "theorems": [
    "C45_derivative_true",
    "C45_value_true",
    "C45_second_derivative_true",
    "C45_dependence_true",
    "C45_cache_transparent",
    "C45_division_columns_refuted",
    "C45_exponent_near_one_refuted",
    "C45_same_name_refuted",
    "C45_cache_same_name_refuted"
   ],
   "note": "Every tree built by the operators of levi (constants, variables, dependent variables, user evaluables, sums, products, powers, quotients, skew, vee, transpose, accessors, compositions, derivatives of derivatives) whose derivative call returns: C45_derivative_true, C45_value_true, with and without the derivative caches. Missing: termination of the derivative construction is not proved (partial correctness with respect to fuel); squeeze/compile not modelled; powers are over the reals with rational exponents. The English claim is false as stated in four corners, refuted by witnesses: quotients with a numerator of several columns, exponents closer to 1 than 1e-15, variables of the same name and dimension, cached derivatives of same-named variables of different dimension."
  },
  {
   "property": "C46",
   "status": "proved",
   "theorems": [
    "C46_state_resize",
    "C46_control_resize",
    "C46_checkSize_exact",
    "C46_state_sameSize_equivalence",
    "C46_control_sameSize_equivalence",
    "C46_state_zero",
    "C46_control_zero",
    "C46_constructors"
   ],
   "note": ""
  },
  {
   "property": "C47",
   "status": "proved",
   "theorems": [
    "C47_centroid",
    "C47_left_is_forward",
    "C47_empty_foot_not_forward",
    "C47_minimum_force",
    "C47_minimum_force_defined_iff"
   ],
   "note": "minimumPointForceOnForwardFoot is defined iff the right foot has points (proved as iff)."
  },
  {
   "property": "C48",
   "status": "proved",
   "theorems": [
    "C48_momentum_reference",
    "C48_momentum_reference_invalid",
    "C48_momentum_reference_stable",
    "C48_total_mass"
   ],
   "note": ""
  },
  {
   "property": "C49",
   "status": "partial",
   "theorems": [
    "C49_solution",
    "C49_fewer_points_stale_refuted",
    "C49_more_points_out_of_bounds_refuted"
   ],
   "note": "Proved for every solution length and history that keeps the numbers of joints and points; refuted when settings change them: fewer points leave stale points in the returned states, more points write out of bounds."
  },
  {
   "property": "C50",
   "status": "proved",
   "theorems": [
    "C50_inverse_quaternion",
    "C50_bounds_accept_unit",
    "C50_bounds_meaning",
    "C50_bounds_not_sign_symmetric"
   ],
   "note": ""
  },
  {
   "property": "C51",
   "status": "proved",
   "theorems": [
    "C51_defaults_accepted",
    "C51_fixed_joint_first_refuted"
   ],
   "note": ""
  },
  {
   "property": "C52",
   "status": "partial",
   "theorems": [
    "C52_server_fresh",
    "C52_server_fresh_one_argument",
    "C52_constraint_sees_its_state",
    "C52_two_argument_update_stale_refuted"
   ],
   "note": "Proved for the one-argument update (the one the code base uses) after any history; the two-argument update is refuted (it keeps the variables of another knot)."
  },
  {
   "property": "C53",
   "status": "partial",
   "theorems": [
    "C53_expression_of_the_pair",
    "C53_stable",
    "C53_ambiguous_names_refuted"
   ],
   "note": "Proved when the requested names are never ambiguous under concatenation; refuted for names such as (l_foot,_sole) and (l_foot_,sole)."
  },
  {
   "property": "C54",
   "status": "proved",
   "theorems": [
    "C54_exponential_weight"
   ],
   "note": ""
  },
  {
   "property": "C55",
   "status": "partial",
   "theorems": [
    "C55_exactly_the_costs_asked",
    "C55_each_with_its_own_data",
    "C55_problem_is_the_one_asked",
    "C55_succeeds_iff_usable",
    "C55_nothing_else_is_added",
    "C55_variables",
    "C55_force_ratio_weight_refuted",
    "C55_null_reference_refuted"
   ],
   "note": "The full statement fails for the weight of the force ratio cost (C55_force_ratio_weight_refuted) and for a missing desired rotation (C55_null_reference_refuted); C55_problem_is_the_one_asked is the exact statement outside these cases. The constructors of the costs record their arguments; foot and index of a contact point cost are its identity."
  },
  {
   "property": "C56",
   "status": "proved",
   "theorems": [
    "C56_exactly_the_constraints_asked",
    "C56_each_with_its_own_parameters",
    "C56_succeeds_iff_friction_positive",
    "C56_one_mechanism_per_point",
    "C56_every_point_covered",
    "C56_nothing_else_is_added",
    "C56_no_abort",
    "C56_zero_friction_refuted",
    "C56_negative_distance_refuted"
   ],
   "note": "For every non-negative minimum feet distance (the only one the settings accept; C56_negative_distance_refuted shows the silent replacement otherwise). C56_zero_friction_refuted: settings validation accepts a coefficient the solver refuses."
  },
  {
   "property": "C57",
   "status": "partial",
   "theorems": [
    "C57_adjoint_value",
    "C57_adjoint_object_value",
    "C57_adjoint_derivative_links",
    "C57_adjoint_derivative_iff",
    "C57_second_derivative",
    "C57_out_of_bounds",
    "C57_offset_frame_refuted",
    "C57_second_derivative_resolved",
    "C57_second_derivative_rotation"
   ],
   "note": "The derivative of the adjoint is right for links and exactly when the offset of the additional frame leaves the axis of the last joint where it is (C57_adjoint_derivative_iff); wrong otherwise (C57_offset_frame_refuted), which the statement does not allow. C57_second_derivative takes the nested getColumnDerivative calls as exact; C57_second_derivative_resolved and C57_second_derivative_rotation resolve them to what the classes return, and need the offset condition. C57_out_of_bounds: a fixed joint numbered below the dofs is an access out of bounds."
  },
  {
   "property": "C58",
   "status": "proved",
   "theorems": [
    "C58_jacobian_value",
    "C58_jacobian_columns",
    "C58_jacobian_derivative",
    "C58_position_value",
    "C58_rotation_value",
    "C58_position_derivative",
    "C58_quaternion_value",
    "C58_quaternion_derivative",
    "C58_jacobian_derivative_resolved"
   ],
   "note": "iDynTree's relative transforms, Jacobians and quaternions are oracles with the contract `kinematics`, shown to be satisfiable. The quaternion derivative holds where the returned quaternion is differentiable."
  },
  {
   "property": "C59",
   "status": "proved",
   "theorems": [
    "C59_relative_velocity",
    "C59_relative_velocity_derivative",
    "C59_absolute_velocity",
    "C59_absolute_velocity_state",
    "C59_absolute_velocity_derivative",
    "C59_absolute_velocity_columns"
   ],
   "note": "For base twists that do not use kinematic expressions and do not depend on the joints (what ExpressionsServer passes)."
  },
  {
   "property": "C60",
   "status": "partial",
   "theorems": [
    "C60_normalized_quaternion",
    "C60_base_rotation",
    "C60_body_twist",
    "C60_body_twist_unit",
    "C60_base_twist_inertial",
    "C60_base_twist_iff",
    "C60_default_velocity_iff",
    "C60_default_velocity_refuted"
   ],
   "note": "Rotation, normalisation and BodyTwistFromQuaternionVelocity are proved. The baseTwist written in the constructor of ExpressionsServer has the angular velocity of the inertial frame (C60_base_twist_inertial), so the default absoluteVelocity is wrong in general: C60_default_velocity_iff is the exact condition, C60_default_velocity_refuted a witness. For a quaternion that is not of unit norm the angular velocity is scaled by the norm (stated in C60_body_twist)."
  },
  {
   "property": "C61",
   "status": "proved",
   "theorems": [
    "C61_error_value",
    "C61_error_zero",
    "C61_error_joints",
    "C61_error_quaternion",
    "C61_error_other"
   ],
   "note": "iDynTree's asQuaternion is an oracle that returns a unit quaternion of the rotation (shown to exist). No derivative is provided with respect to the desired quaternion."
  },
  {
   "property": "C62",
   "status": "partial",
   "theorems": [
    "C62_value_and_jacobians",
    "C62_feet_distance_exact",
    "C62_minimum_distance",
    "C62_turned_frame_refuted"
   ],
   "note": "C62_feet_distance_exact holds when the offset of the other foot's frame does not turn the axis of its last joint (links always satisfy it); without that condition only C62_value_and_jacobians holds and the Hessian is wrong (C62_turned_frame_refuted: the code computes 0 where the second derivative is -1)."
  },
  {
   "property": "C64",
   "status": "partial",
   "theorems": [
    "C64_value_and_jacobian_partial",
    "C64_contact_position_exact",
    "C64_bounds",
    "C64_turned_frame_refuted"
   ],
   "note": "C64_contact_position_exact (value, Jacobians, Hessians, patterns, any history, quaternion not zero) needs the offset of the foot's frame to keep the axes of the joints of its link (links always satisfy it). Without that condition C64_value_and_jacobian_partial gives the value, the patterns and every column of the Jacobian except the joints'; the joint columns are wrong in general (C64_turned_frame_refuted: true derivative 0, the code writes -1)."
  },
  {
   "property": "C65",
   "status": "proved",
   "theorems": [
    "C65_com_and_jacobian",
    "C65_com_hessian",
    "C65_hessian_of_the_jacobian",
    "C65_fixed_joint_refuted"
   ],
   "note": "iDynTree's centre of mass and its Jacobian are oracles with the contract com_oracle (met: com_oracle_exists). Fixed joints are outside the contract: C65_fixed_joint_refuted shows that with one the constructor of the Hessian indexes past its columns."
  },
  {
   "property": "C63",
   "status": "proved",
   "theorems": [
    "C63_value_and_jacobian",
    "C63_all",
    "C63_com_position_exact",
    "C63_bounds"
   ],
   "note": "iDynTree's centre of mass, its Jacobian and QuaternionRightTrivializedDerivativeInverse are oracles with the contracts com_oracle and right_trivialized (met: com_oracle_exists, right_inverse_ok). The quaternion of the base must be non-zero, joints must have one degree of freedom. n0 bounds the nesting of the constructors of the Hessians, whose termination is part of the theorem."
  },
  {
   "property": "C66",
   "status": "proved",
   "theorems": [
    "C66_value",
    "C66_unavailable",
    "C66_frame_orientation_exact",
    "C66_zero_iff",
    "C66_exact_below_half_turn",
    "C66_half_angle",
    "C66_trajectory_setter"
   ],
   "note": "iDynTree's getFrameFreeFloatingJacobian, asQuaternion, QuaternionRightTrivializedDerivative and its inverse are oracles with the contracts frame_spin, represents, right_trivialized_back, right_trivialized (all met: spin_jacobian_ok, quat_of_ok, right_map_ok, right_inverse_ok). C66_frame_orientation_exact holds on any set open along the coordinates where the error is differentiable; C66_exact_below_half_turn instantiates it. The robot has at least one joint."
  },
  {
   "property": "C67",
   "status": "partial",
   "theorems": [
    "C67_value",
    "C67_unavailable",
    "C67_trajectory_setter",
    "C67_hessian_patterns",
    "C67_ignores_control",
    "C67_state_gradient",
    "C67_control_gradient",
    "C67_history_independent_refuted",
    "C67_control_gradient_refuted",
    "C67_control_hessian_refuted"
   ],
   "note": "False as stated: the velocities of the control are never read, so the value depends on the shared state (C67_history_independent_refuted), the control gradient is not the one of the value (C67_control_gradient_refuted) and the control Hessian is always zero (C67_control_hessian_refuted). Proved: the value for the velocities of the shared state (with the spin of the base seen in the world, C60), the state gradient, the control gradient when the shared state has the velocities of the control, failures. Missing: second derivatives with respect to the state and mixed ones (a parameter of the model)."
  },
  {
   "property": "C68",
   "status": "proved",
   "theorems": [
    "C68_velocity_derivative",
    "C68_no_frame",
    "C68_base_frames",
    "C68_fixed_joint_undefined"
   ],
   "note": "For models whose joints all have a degree of freedom; with a fixed joint on the way the arrays are read out of bounds (C68_fixed_joint_undefined)."
  },
  {
   "property": "C69",
   "status": "proved",
   "theorems": [
    "C69_momentum_derivative",
    "C69_momentum_exists",
    "C69_fixed_joint_undefined"
   ],
   "note": "For models whose joints all have a degree of freedom; with a fixed joint in the model the arrays are read out of bounds (C69_fixed_joint_undefined)."
  },
  {
   "property": "C70",
   "status": "proved",
   "theorems": [
    "C70_value_and_jacobians",
    "C70_control_hessian",
    "C70_hessian_patterns",
    "C70_value_exists",
    "C70_body_spin",
    "C70_bounds",
    "C70_other_times",
    "C70_state_hessian",
    "C70_mixed_hessian"
   ],
   "note": "The expressions of constructExpressions are modelled by their values and the derivatives that levi takes of them by the derivatives of the values (C45, C65, C72 show that the rules and the nodes give these)."
  },
  {
   "property": "C71",
   "status": "proved",
   "theorems": [
    "C71_state_hessian",
    "C71_mixed_hessian",
    "C71_entries"
   ],
   "note": "What the tasks evaluate to is a parameter; races between the threads on the shared expressions are not modelled."
  },
  {
   "property": "C72",
   "status": "proved",
   "theorems": [
    "C72_value",
    "C72_joints",
    "C72_evaluate_agrees",
    "C72_rates",
    "C72_twist",
    "C72_twist_joints",
    "C72_second_derivative",
    "C72_second_symmetric"
   ],
   "note": "Expressions are modelled by their values at a point; the derivatives of the derivatives other than those with respect to the joints (which levi computes from products of the same operands) are not stated."
  },
  {
   "property": "C73",
   "status": "proved",
   "theorems": [
    "C73_static_torque_derivative",
    "C73_balance_exists",
    "C73_balance_unique",
    "C73_fixed_joint_undefined"
   ],
   "note": "The accelerations and the wrenches that iDynTree computes are inputs: the accelerations by the adjoint of the base acceleration, the wrenches by the balance of every link (shown to exist and be unique). Every degree of freedom is that of a joint the traversal crosses; with a fixed joint in the tree the routine reads out of bounds (C73_fixed_joint_undefined)."
  },
  {
   "property": "C74",
   "status": "proved",
   "theorems": [
    "C74_value",
    "C74_torques_exist",
    "C74_force_columns",
    "C74_jacobian_history",
    "C74_gradient_of_blocks",
    "C74_weights",
    "C74_same_link_refuted",
    "C74_conjugate",
    "C74_half_turn_refuted",
    "C74_joint_columns",
    "C74_quaternion_columns",
    "C74_gradient"
   ],
   "note": "The gradient is exact (C74_gradient) wherever the base quaternion is not zero and the quaternions that asQuaternion returns for the rotation of each foot and its inverse are conjugate, which holds unless the foot is turned by half a turn (C74_conjugate); at a half turn the forces turn in the opposite direction in the block of the joints (C74_half_turn_refuted). The feet are on two links: on the same link the forces of the left one are lost (C74_same_link_refuted)."
  }
 ]
}