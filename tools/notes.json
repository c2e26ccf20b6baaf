{
 "C14": {
  "status": "partial",
  "note": "Value, Jacobians, control/mixed Hessians and sparsity are exact; the state Hessian of the code is wrong (multipliers 1 and 2 paired with the wrong limits, stale point height): refuted with two witnesses, and the exact condition under which it is right is proved."
 },
 "C21": {
  "status": "partial",
  "note": "Value, gradient, control/mixed Hessians exact. The state Hessian in the code misses a factor fz (PhantomForcesCost.cpp:138): refuted with a witness; the exact condition under which it is right is proved as an iff."
 },
 "C24": {
  "status": "partial",
  "note": "Derivatives exact for every foot and history. Zero at the desired yaw proved for feet whose selected edges are axis aligned; refuted for a tilted foot (the code subtracts the construction yaw instead of adding it)."
 },
 "C28": {
  "status": "partial",
  "note": "The per-corner forces reproduce force, CoP moments for >=3 active corners exactly, with explicit residuals otherwise; a corner CoP loses the yaw moment (refuted with a witness)."
 },
 "C31": {
  "status": "partial",
  "note": "Acceptance is proved to be exactly the documented ranges (iff) for structures without NaN. Refuted with witnesses: NaN horizon accepted, zero horizon accepted, missing references of active costs/target constraint accepted, unrelated reference required."
 },
 "C33": {
  "status": "partial",
  "note": "Exact characterisation: out of bounds iff there are fewer velocity limits than position limits; the unconditional claim is refuted."
 },
 "C38": {
  "status": "partial",
  "note": "Search proved for every non-empty list, finite time and history. Refuted: after setting fewer timings than before, stale knots remain and are served; a NaN time and empty timings read outside the container."
 },
 "C39": {
  "status": "partial",
  "note": "Never stale (within tolerance) for every history of queries/updates/gravity/tolerance/base changes; exact at zero tolerance. Refuted: reloading a model, sub-tolerance gravity drift, and the base transform after a refused state."
 },
 "C47": {
  "note": "minimumPointForceOnForwardFoot is defined iff the right foot has points (proved as iff)."
 },
 "C52": {
  "status": "partial",
  "note": "Proved for the one-argument update (the one the code base uses) after any history; the two-argument update is refuted (it keeps the variables of another knot)."
 },
 "C53": {
  "status": "partial",
  "note": "Proved when the requested names are never ambiguous under concatenation; refuted for names such as (l_foot,_sole) and (l_foot_,sole)."
 },
 "C40": {
  "status": "partial",
  "note": "Termination and the band proved for every base pose when there is at least one contact point; refuted: without points the recursion never ends; the returned base pose is 1e-8..2e-8 below the ground (recorded points are 2e-8 above those of the pose)."
 },
 "C41": {
  "status": "partial",
  "note": "Weight supported up to the thresholds of RectangularFoot for every placement, exact static balance for aligned feet with the CoM over them; refuted: laterally aligned CoM and feet give NaN forces with a true answer."
 },
 "C42": {
  "note": "Also refuted: an invalid reference is reported as valid; the returned reference is writable and forces written by the caller persist."
 },
 "C43": {
  "note": "For non negative step duration, horizon and elapsed times (a negative step duration is accepted by initialize and refutes well-formedness); progress (liveness) is proved too."
 },
 "C34": {
  "status": "proved",
  "note": "Refusals for every history; sequence and absence of undefined behaviour for histories that keep the numbers of joints and points. Finding (refuted): a specifySettings that fails half way leaves a solver that goes on with a mixture of old external solver and new problem."
 },
 "C35": {
  "status": "proved",
  "note": "For histories that keep the numbers of joints and points; across a change of them a pending guess is used with the old variable structure (refuted)."
 },
 "C36": {
  "status": "partial",
  "note": "Proved for accepted settings with a non negative force derivative bound, finite references and non negative tolerance. Refuted: forceMaximumDerivative is not validated (negative crosses the bounds); active part measured from time 0, not from the initial time, so a problem starting late is frozen from the start."
 },
 "C37": {
  "status": "proved",
  "note": "Finding: inside the box the minimum CoM height is dropped (refuted with a witness)."
 },
 "C49": {
  "status": "partial",
  "note": "Proved for every solution length and history that keeps the numbers of joints and points; refuted when settings change them: fewer points leave stale points in the returned states, more points write out of bounds."
 },
 "C44": {
  "note": "Proved for every history of the modelled calls (one thread, unbounded counters). Handle assignment a = b is Copy b; Drop a; handles kept in the type information are extra copies. Finding, with witness: assigning an empty expression of another type returns the caller id but keeps using it (ExpressionImplementation.h:692-706), after which an evaluation can be stale; that call is outside the modelled history language."
 },
 "C19": {
  "status": "partial",
  "note": "Law, Jacobians and Hessians (given the library's rotation derivatives, C45) proved exact for every number of points and joints and every history; the layout hypothesis is discharged for the structure the solver builds. The declared state-Jacobian sparsity is refuted: it misses the (fz,fz) entries dissipation*(activation-1) and declares a quaternion block that is never written (C19_state_sparsity_refuted, C19_stale_block_refuted); every other non-zero entry is covered (C19_declared_state_pattern)."
 },
 "C45": {
  "status": "partial",
  "note": "Every tree built by the operators of levi (constants, variables, dependent variables, user evaluables, sums, products, powers, quotients, skew, vee, transpose, accessors, compositions, derivatives of derivatives) whose derivative call returns: C45_derivative_true, C45_value_true, with and without the derivative caches. Missing: termination of the derivative construction is not proved (partial correctness with respect to fuel); squeeze/compile not modelled; powers are over the reals with rational exponents. The English claim is false as stated in four corners, refuted by witnesses: quotients with a numerator of several columns, exponents closer to 1 than 1e-15, variables of the same name and dimension, cached derivatives of same-named variables of different dimension."
 },
 "C55": {
  "status": "partial",
  "note": "The full statement fails for the weight of the force ratio cost (C55_force_ratio_weight_refuted) and for a missing desired rotation (C55_null_reference_refuted); C55_problem_is_the_one_asked is the exact statement outside these cases. The constructors of the costs record their arguments; foot and index of a contact point cost are its identity."
 },
 "C56": {
  "status": "proved",
  "note": "For every non-negative minimum feet distance (the only one the settings accept; C56_negative_distance_refuted shows the silent replacement otherwise). C56_zero_friction_refuted: settings validation accepts a coefficient the solver refuses."
 },
 "C57": {
  "status": "partial",
  "note": "The derivative of the adjoint is right for links and exactly when the offset of the additional frame leaves the axis of the last joint where it is (C57_adjoint_derivative_iff); wrong otherwise (C57_offset_frame_refuted), which the statement does not allow. C57_second_derivative takes the nested getColumnDerivative calls as exact; C57_second_derivative_resolved and C57_second_derivative_rotation resolve them to what the classes return, and need the offset condition. C57_out_of_bounds: a fixed joint numbered below the dofs is an access out of bounds."
 },
 "C58": {
  "status": "proved",
  "note": "iDynTree's relative transforms, Jacobians and quaternions are oracles with the contract `kinematics`, shown to be satisfiable. The quaternion derivative holds where the returned quaternion is differentiable."
 },
 "C59": {
  "status": "proved",
  "note": "For base twists that do not use kinematic expressions and do not depend on the joints (what ExpressionsServer passes)."
 },
 "C60": {
  "status": "partial",
  "note": "Rotation, normalisation and BodyTwistFromQuaternionVelocity are proved. The baseTwist written in the constructor of ExpressionsServer has the angular velocity of the inertial frame (C60_base_twist_inertial), so the default absoluteVelocity is wrong in general: C60_default_velocity_iff is the exact condition, C60_default_velocity_refuted a witness. For a quaternion that is not of unit norm the angular velocity is scaled by the norm (stated in C60_body_twist)."
 },
 "C61": {
  "status": "proved",
  "note": "iDynTree's asQuaternion is an oracle that returns a unit quaternion of the rotation (shown to exist). No derivative is provided with respect to the desired quaternion."
 },
 "C62": {
  "status": "partial",
  "note": "C62_feet_distance_exact holds when the offset of the other foot's frame does not turn the axis of its last joint (links always satisfy it); without that condition only C62_value_and_jacobians holds and the Hessian is wrong (C62_turned_frame_refuted: the code computes 0 where the second derivative is -1)."
 },
 "C64": {
  "status": "partial",
  "note": "C64_contact_position_exact (value, Jacobians, Hessians, patterns, any history, quaternion not zero) needs the offset of the foot's frame to keep the axes of the joints of its link (links always satisfy it). Without that condition C64_value_and_jacobian_partial gives the value, the patterns and every column of the Jacobian except the joints'; the joint columns are wrong in general (C64_turned_frame_refuted: true derivative 0, the code writes -1)."
 },
 "C65": {
  "note": "iDynTree's centre of mass and its Jacobian are oracles with the contract com_oracle (met: com_oracle_exists). Fixed joints are outside the contract: C65_fixed_joint_refuted shows that with one the constructor of the Hessian indexes past its columns."
 },
 "C63": {
  "note": "iDynTree's centre of mass, its Jacobian and QuaternionRightTrivializedDerivativeInverse are oracles with the contracts com_oracle and right_trivialized (met: com_oracle_exists, right_inverse_ok). The quaternion of the base must be non-zero, joints must have one degree of freedom. n0 bounds the nesting of the constructors of the Hessians, whose termination is part of the theorem."
 },
 "C66": {
  "note": "iDynTree's getFrameFreeFloatingJacobian, asQuaternion, QuaternionRightTrivializedDerivative and its inverse are oracles with the contracts frame_spin, represents, right_trivialized_back, right_trivialized (all met: spin_jacobian_ok, quat_of_ok, right_map_ok, right_inverse_ok). C66_frame_orientation_exact holds on any set open along the coordinates where the error is differentiable; C66_exact_below_half_turn instantiates it. The robot has at least one joint."
 },
 "C67": {
  "status": "partial",
  "note": "False as stated: the velocities of the control are never read, so the value depends on the shared state (C67_history_independent_refuted), the control gradient is not the one of the value (C67_control_gradient_refuted) and the control Hessian is always zero (C67_control_hessian_refuted). Proved: the value for the velocities of the shared state (with the spin of the base seen in the world, C60), the state gradient, the control gradient when the shared state has the velocities of the control, failures. Missing: second derivatives with respect to the state and mixed ones (a parameter of the model)."
 },
 "C68": {
  "status": "proved",
  "note": "For models whose joints all have a degree of freedom; with a fixed joint on the way the arrays are read out of bounds (C68_fixed_joint_undefined)."
 },
 "C69": {
  "status": "proved",
  "note": "For models whose joints all have a degree of freedom; with a fixed joint in the model the arrays are read out of bounds (C69_fixed_joint_undefined)."
 },
 "C70": {
  "status": "proved",
  "note": "The expressions of constructExpressions are modelled by their values and the derivatives that levi takes of them by the derivatives of the values (C45, C65, C72 show that the rules and the nodes give these)."
 },
 "C71": {
  "status": "proved",
  "note": "What the tasks evaluate to is a parameter; races between the threads on the shared expressions are not modelled."
 },
 "C72": {
  "status": "proved",
  "note": "Expressions are modelled by their values at a point; the derivatives of the derivatives other than those with respect to the joints (which levi computes from products of the same operands) are not stated."
 },
 "C73": {
  "status": "proved",
  "note": "The accelerations and the wrenches that iDynTree computes are inputs: the accelerations by the adjoint of the base acceleration, the wrenches by the balance of every link (shown to exist and be unique). Every degree of freedom is that of a joint the traversal crosses; with a fixed joint in the tree the routine reads out of bounds (C73_fixed_joint_undefined)."
 },
 "C74": {
  "status": "proved",
  "note": "The gradient is exact (C74_gradient) wherever the base quaternion is not zero and the quaternions that asQuaternion returns for the rotation of each foot and its inverse are conjugate, which holds unless the foot is turned by half a turn (C74_conjugate); at a half turn the forces turn in the opposite direction in the block of the joints (C74_half_turn_refuted). The feet are on two links: on the same link the forces of the left one are lost (C74_same_link_refuted)."
 }
}