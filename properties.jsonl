{"id": "C01", "title": "Variable labels partition the optimisation vector", "statement": "After any sequence of addLabel/clear calls, the index ranges handed out for the labels are contiguous in insertion order, pairwise disjoint and together cover exactly [0,size()); a duplicate label is refused and changes nothing; looking up a known label returns its own range and an unknown label the invalid range.", "quantifier": "every sequence of labeller operations, every label string and every dimension", "why_tests_cant": "the number of labels, their order and their sizes are unbounded; a test samples a few layouts", "anchors": [{"file": "src/private/VariablesLabeller.cpp", "symbols": ["VariablesLabeller::addLabel", "getIndexRange", "clear"]}]}
{"id": "C02", "title": "Adding or writing a variable never disturbs the others", "statement": "Adding a label leaves every previously stored value where it was and zeroes the new segment; writing through one label's span changes only that label's entries; assigning a whole vector keeps every range.", "quantifier": "every labeller state, label, value vector", "why_tests_cant": "aliasing or off-by-one between segments shows only for particular orders of sizes", "anchors": [{"file": "src/private/VariablesLabeller.cpp", "symbols": ["addLabel", "operator()", "operator="]}]}
{"id": "C03", "title": "Solver vector layout has the advertised dimension and unique names", "statement": "For every number of contact points per foot and every number of joints, the state vector built by the solver has exactly 12n+16+dof entries and the control vector 12n+7+dof, all the labels are accepted (no two coincide), and the per-point ranges have size 3, momentum 6, CoM 3, base position 3, quaternion 4, joints dof, in the documented order.", "quantifier": "all n, all dof", "why_tests_cant": "label collisions such as Point1/Point10 and off-by-one offsets depend on n", "anchors": [{"file": "src/Solver.cpp", "symbols": ["Solver::Implementation::setVariablesStructure", "setFootVariables"]}]}
{"id": "C04", "title": "Initial state survives the trip through the optimisation vector", "statement": "Writing a state in the optimisation vector (initial state / state guess) and reading it back returns the same contact positions, forces, momentum, CoM, base position, joints and time, and the base orientation corresponding to the (normalised) quaternion.", "quantifier": "every state whose dimensions agree with the layout", "why_tests_cant": "requires every entry index to be consistent for every n and dof", "anchors": [{"file": "src/Solver.cpp", "symbols": ["fillInitialState", "StateGuesses::get", "setStateFromVariables"]}]}
{"id": "C05", "title": "Control guess and control result use the same layout", "statement": "Writing a control in the optimisation vector and reading it back returns the same velocities, force derivatives, base velocity, quaternion derivative and joint velocity; a guess that is invalid or of the wrong size yields a zero vector flagged invalid.", "quantifier": "every control and every guess provider", "why_tests_cant": "as C04", "anchors": [{"file": "src/Solver.cpp", "symbols": ["ControlGuesses::get", "setControlFromVariables"]}]}
{"id": "C06", "title": "Hyperbolic tangent activation: derivatives are exact", "statement": "The derivative and double derivative reported by the smooth step are the true first and second derivatives of the value it reports at every point; the value lies in (-1,1) (scaled); a disabled activation is a constant with zero derivatives.", "quantifier": "every argument and every scaling", "why_tests_cant": "a finite-difference test only samples points and cannot separate O(eps) errors", "anchors": [{"file": "src/private/HyperbolicTangent.cpp", "symbols": ["eval", "evalDerivative", "evalDoubleDerivative"]}]}
{"id": "C07", "title": "Hyperbolic secant activation: derivatives are exact", "statement": "The derivative and double derivative reported by the smooth bump are the true first and second derivatives of the value it reports; the value lies in (0,1] with the maximum only at 0.", "quantifier": "every argument and every scaling", "why_tests_cant": "as C06", "anchors": [{"file": "src/private/HyperbolicSecant.cpp", "symbols": ["eval", "evalDerivative", "evalDoubleDerivative"]}]}
{"id": "C08", "title": "Quaternion normalisation and its derivative", "statement": "For every non-zero quaternion the normalised quaternion has unit norm and is a positive multiple of the input, and the reported 4x4 matrix is the Jacobian of normalisation.", "quantifier": "every non-zero quaternion", "why_tests_cant": "exact identity over a continuum", "anchors": [{"file": "src/private/QuaternionUtils.cpp", "symbols": ["NormalizedQuaternion", "NormalizedQuaternionDerivative"]}]}
{"id": "C09", "title": "Jacobian of a rotated vector with respect to the quaternion", "statement": "The reported 3x4 matrix is the derivative of R(q)x with respect to q for every q and x.", "quantifier": "every quaternion and vector", "why_tests_cant": "exact identity over a continuum", "anchors": [{"file": "src/private/QuaternionUtils.cpp", "symbols": ["RotatedVectorQuaternionJacobian"]}]}
{"id": "C10", "title": "Left-trivialised quaternion maps are mutually inverse on unit quaternions", "statement": "Mapping an angular velocity to a quaternion derivative and back is the identity for every unit quaternion (scaled by |q|^2 otherwise), the quaternion derivative is tangent to the sphere, and the bilinear Jacobians reported for both maps are exact.", "quantifier": "every quaternion, angular velocity and quaternion derivative", "why_tests_cant": "exact identity over a continuum", "anchors": [{"file": "src/private/QuaternionUtils.cpp", "symbols": ["QuaternionLeftTrivializedDerivative", "QuaternionLeftTrivializedDerivativeInverse", "QuaternionLeftTrivializedDerivativeTimesOmegaJacobian"]}]}
{"id": "C11", "title": "Normal force dynamics constraint: value, Jacobians, Hessians, sparsity", "statement": "The contact force control constraint returns the documented value; its state and control Jacobians are the exact partial derivatives of it; its Hessians are the exact second derivatives of the multiplier-weighted constraint; every structurally possible non-zero entry is declared in the sparsity pattern.", "quantifier": "every state, control, multiplier, layout offset, activation and gain", "why_tests_cant": "derivatives must agree everywhere, for every position of the variables in the vector", "anchors": [{"file": "src/private/ContactForceControlConstraints.cpp", "symbols": ["evaluateConstraint", "constraintJacobianWRTState", "constraintSecondPartialDerivativeWRTState"]}]}
{"id": "C12", "title": "Friction constraint: meaning and exact derivatives", "statement": "The friction constraint is satisfied exactly when the tangential force norm is at most mu*|fz|; Jacobian, Hessian and sparsity are exact; a non-positive coefficient is refused and leaves the coefficient unchanged.", "quantifier": "every force, coefficient, multiplier, layout offset", "why_tests_cant": "continuum of inputs", "anchors": [{"file": "src/private/ContactFrictionConstraint.cpp", "symbols": ["evaluateConstraint", "setFrictionCoefficient"]}]}
{"id": "C13", "title": "Normal velocity constraint: value and exact derivatives", "statement": "The normal velocity control constraint value, Jacobians, Hessians and sparsity pattern are mutually consistent (exact derivatives).", "quantifier": "every state, control, multiplier, layout offset, activation", "why_tests_cant": "continuum of inputs", "anchors": [{"file": "src/private/NormalVelocityControlConstraints.cpp", "symbols": ["evaluateConstraint"]}]}
{"id": "C14", "title": "Planar velocity constraint: value and exact derivatives", "statement": "The planar velocity control constraint value, Jacobians, Hessians and sparsity pattern are mutually consistent (exact derivatives).", "quantifier": "every state, control, multiplier, layout offset, activation", "why_tests_cant": "continuum of inputs; the Hessian is wrong only when multipliers differ", "anchors": [{"file": "src/private/PlanarVelocityControlConstraints.cpp", "symbols": ["evaluateConstraint", "constraintSecondPartialDerivativeWRTState"]}]}
{"id": "C15", "title": "Classical complementarity constraints: exact derivatives", "statement": "The relaxed normal complementarity (height times normal force) and its planar counterpart return the documented values and exact Jacobians, Hessians and sparsity patterns.", "quantifier": "every state, control, multiplier, layout offset", "why_tests_cant": "continuum of inputs", "anchors": [{"file": "src/private/ClassicalComplementarityConstraint.cpp", "symbols": ["evaluateConstraint"]}, {"file": "src/private/ClassicalPlanarComplementarityConstraint.cpp", "symbols": ["evaluateConstraint"]}]}
{"id": "C16", "title": "Dynamical complementarity constraint: exact derivatives and decay", "statement": "The dynamical complementarity constraint value is (d/dt + gain) of height times normal force along the planner's own point dynamics, its Jacobians, Hessians and sparsity are exact, and when it is satisfied with bound eps along a trajectory the product stays below max(initial value, eps/gain).", "quantifier": "every state, control, multiplier, trajectory", "why_tests_cant": "continuum of inputs and of trajectories", "anchors": [{"file": "src/private/DynamicalComplementarityConstraint.cpp", "symbols": ["evaluateConstraint"]}]}
{"id": "C17", "title": "Quaternion norm constraint", "statement": "The quaternion norm constraint is zero exactly on unit quaternions; Jacobian, Hessian and sparsity are exact; the equality tolerance gives a symmetric band.", "quantifier": "every state, multiplier, layout offset, tolerance", "why_tests_cant": "continuum of inputs", "anchors": [{"file": "src/private/QuaternionNormConstraint.cpp", "symbols": ["evaluateConstraint"]}]}
{"id": "C18", "title": "Feet relative height constraint", "statement": "The value is the difference between the mean heights of the left and right contact points for every number of points; the Jacobian is exact and the sparsity pattern is exactly its support.", "quantifier": "every number of points, every state, every layout", "why_tests_cant": "depends on number of points and offsets", "anchors": [{"file": "src/private/FeetRelativeHeightConstraint.cpp", "symbols": ["evaluateConstraint"]}]}
{"id": "C19", "title": "Planner dynamics follow the centroidal dynamics with exact Jacobians", "statement": "The dynamics return: force rate = control in x,y and smoothed-activation(height)*control + dissipation*(activation-1)*force in z; point velocity = planar activation(height)*control in x,y and control in z; linear momentum rate = mass*gravity + sum of forces; angular momentum rate = sum of (p-com) x f; com rate = linear momentum / mass; base position rate = R(q/|q|)v; quaternion and joint rates = controls; state and control Jacobians are the exact partial derivatives; Hessians of the contact part are the exact second derivatives; the declared sparsity patterns cover them.", "quantifier": "every number of points and joints, every state (nonzero quaternion) and control, every history of calls", "why_tests_cant": "the block structure depends on n and dof", "anchors": [{"file": "src/private/DynamicalConstraints.cpp", "symbols": ["dynamics", "dynamicsStateFirstDerivative", "dynamicsControlFirstDerivative"]}]}
{"id": "C20", "title": "Swing and complementarity costs: exact gradients and Hessians", "statement": "Gradients, Hessians and mixed Hessians of the swing cost and of the complementarity cost are exact derivatives of the reported cost; both costs are non-negative (for non-negative weights).", "quantifier": "every state, control, weight, layout offset", "why_tests_cant": "continuum of inputs", "anchors": [{"file": "src/private/SwingCost.cpp", "symbols": ["costEvaluation"]}, {"file": "src/private/ComplementarityCost.cpp", "symbols": ["costEvaluation"]}]}
{"id": "C21", "title": "Phantom forces cost: exact gradient and Hessian", "statement": "Gradient and Hessian of the phantom force cost are the exact derivatives of the reported cost.", "quantifier": "every state, layout offset, activation", "why_tests_cant": "continuum of inputs; the wrong term vanishes when fz = 1 or the curvature is zero", "anchors": [{"file": "src/private/PhantomForcesCost.cpp", "symbols": ["costSecondPartialDerivativeWRTState"]}]}
{"id": "C22", "title": "Force mean and force ratio costs: exact gradients and Hessians", "statement": "For any number of contact points the gradients and Hessians of the force mean and force ratio costs are exact, the sparsity covers them, and the cost vanishes when the force equals the mean (the desired share of the total).", "quantifier": "every number of points, state, ratio, layout", "why_tests_cant": "depends on n", "anchors": [{"file": "src/private/ForceMeanCost.cpp", "symbols": ["costEvaluation"]}, {"file": "src/private/ForceRatioCost.cpp", "symbols": ["costEvaluation"]}]}
{"id": "C23", "title": "Mean point position and feet distance costs", "statement": "For any number of contact points gradients and Hessians are exact, sparsity covers them, and an invalid reference makes the evaluation report failure without a value.", "quantifier": "every number of points, state, reference, weight", "why_tests_cant": "depends on n", "anchors": [{"file": "src/private/MeanPointPositionCost.cpp", "symbols": ["costEvaluation"]}, {"file": "src/private/FeetDistanceCost.cpp", "symbols": ["costEvaluation"]}]}
{"id": "C24", "title": "Foot yaw cost: zero at the desired yaw, exact derivatives", "statement": "Gradient and Hessian are exact; and the cost vanishes when the foot's contact points are those given at construction rotated by the desired yaw and translated.", "quantifier": "every foot geometry, yaw, translation, state", "why_tests_cant": "continuum; fails only for feet whose side edge is not aligned with x", "anchors": [{"file": "src/private/FootYawCost.cpp", "symbols": ["FootYawCost", "costEvaluation"]}]}
{"id": "C25", "title": "Postural joint velocity cost: exact derivatives", "statement": "Gradient, Hessian and mixed Hessian of the postural velocity cost are exact for every number of joints, and the cost is zero iff each weighted joint velocity equals minus the gain times the joint error.", "quantifier": "every number of joints, weights, gains, references, states", "why_tests_cant": "depends on dof", "anchors": [{"file": "src/private/JointsVelocityForPosturalCost.cpp", "symbols": ["costEvaluation"]}]}
{"id": "C26", "title": "Rectangular foot corners", "statement": "setFoot refuses non-positive dimensions and keeps the previous geometry; after acceptance the four points are the corners of the rectangle with the given length, width and top-left corner, and the queries fail before any acceptance.", "quantifier": "every sequence of setFoot calls, all lengths and widths", "why_tests_cant": "history of calls and real dimensions", "anchors": [{"file": "src/RectangularFoot.cpp", "symbols": ["setFoot", "getPoints"]}]}
{"id": "C27", "title": "CoP to corner ratios", "statement": "For every CoP inside the foot rectangle, the four normal force ratios are non-negative, sum to one and reproduce the CoP.", "quantifier": "every foot size and every CoP in the rectangle", "why_tests_cant": "continuum of CoPs including the edges", "anchors": [{"file": "src/RectangularFoot.cpp", "symbols": ["getNormalRatiosFromCoP"]}]}
{"id": "C28", "title": "Wrench distribution on the corners", "statement": "For every wrench with normal force above the threshold and CoP inside the foot, the point forces sum to the wrench force and generate the wrench moment; below the threshold all forces are zero.", "quantifier": "every wrench", "why_tests_cant": "the degenerate cases have measure zero (CoP on an edge or on a corner)", "anchors": [{"file": "src/RectangularFoot.cpp", "symbols": ["getForces"]}]}
{"id": "C29", "title": "Position reference generator: active reference and weight", "statement": "At every time the reference returned is that of the last stored element whose active range contains the time (zero if none) and the weight is non-zero exactly when there is one; the weight is the increasing polynomial of the elapsed fraction.", "quantifier": "every list of elements, every time", "why_tests_cant": "overlap patterns are unbounded", "anchors": [{"file": "src/PositionReferenceGenerator.cpp", "symbols": ["PositionReferenceGeneratorReference::get", "PositionReferenceGeneratorWeight::get"]}]}
{"id": "C30", "title": "Position reference generator: one shared list of elements", "statement": "Every edit made through the generator (operator[], at, resize) is visible to the reference and weight objects obtained from it since the last init, and not to those obtained before it; out-of-range access is the only undefined behaviour.", "quantifier": "every history of init/resize/edit/query", "why_tests_cant": "history dependent aliasing", "anchors": [{"file": "src/PositionReferenceGenerator.cpp", "symbols": ["PositionReferenceGenerator::init", "resize", "timeVaryingWeight"]}]}
{"id": "C31", "title": "Accepted settings satisfy every documented range", "statement": "Whenever setFromStruct returns true every range check that guards the solver holds of the stored settings (positive horizon, dt ordering, matching joint limits, positive dimensions, required references).", "quantifier": "every settings structure, including non-finite numbers", "why_tests_cant": "combinatorial number of fields; NaN passes every '<' check", "anchors": [{"file": "src/Settings.cpp", "symbols": ["Settings::setFromStruct"]}]}
{"id": "C32", "title": "Rejected settings change nothing", "statement": "When setFromStruct returns false the stored settings and the validity flag are what they were before the call.", "quantifier": "every sequence of setFromStruct calls", "why_tests_cant": "history dependent", "anchors": [{"file": "src/Settings.cpp", "symbols": ["Settings::setFromStruct"]}]}
{"id": "C33", "title": "Settings validation never reads outside its inputs", "statement": "setFromStruct does not read beyond the vectors it is given, for every combination of vector lengths.", "quantifier": "every combination of lengths", "why_tests_cant": "needs a specific pair of mismatching lengths", "anchors": [{"file": "src/Settings.cpp", "symbols": ["Settings::setFromStruct"]}]}
{"id": "C34", "title": "The solver accepts calls only in a usable order", "statement": "Until a call of specifySettings has succeeded, setInitialState, setGuesses and solve answer false and change nothing; null guesses, optimisers and integrators and invalid settings are refused at any moment without effect; specifySettings succeeds only if each of its stages does; no order of calls reads out of bounds or dereferences null; a successful solve gives the external solver the vector of the initial state in force, then the horizon starting at its time, then at most one guess, then the request to solve, and a failed one stops in that sequence and keeps the previous solution.", "quantifier": "every history of API calls and every answer of the external solver (no-undefined-behaviour part: settings that keep the numbers of joints and points)", "why_tests_cant": "ordering of calls is unbounded", "anchors": [{"file": "src/Solver.cpp", "symbols": ["Solver::specifySettings", "setInitialState", "setGuesses", "solve"]}]}
{"id": "C35", "title": "Guesses are consumed by one successful solution", "statement": "A guess accepted by setGuesses is the one passed to the external solver by every solve until one succeeds, and never after; without a pending guess, the first solve after the settings were accepted passes the initial state held constant and zero controls, and later ones pass none.", "quantifier": "every history of API calls with fixed numbers of joints and points", "why_tests_cant": "history dependent", "anchors": [{"file": "src/Solver.cpp", "symbols": ["Solver::solve", "setGuesses"]}]}
{"id": "C36", "title": "Variable bounds are consistent", "statement": "For accepted settings, the lower bound is never above the upper bound for any state or control variable, joints and joint velocities are bounded by the limits given, contact points and normal forces are bounded below by zero, and the controls of the points are frozen to zero after the active part of the horizon.", "quantifier": "every accepted settings, every number of points and joints, every sequence of queries at any times", "why_tests_cant": "depends on layout and on settings", "anchors": [{"file": "src/Solver.cpp", "symbols": ["setBounds", "VariableBound::get"]}]}
{"id": "C37", "title": "Target CoM box is active exactly on its time range", "statement": "The CoM bounds are the reference minus/plus the tolerance exactly when the option is on, both are given and the range contains the time; otherwise they are the default box; an invalid reference is reported as invalid with the default box; no other bound changes, whatever was asked before.", "quantifier": "every sequence of queries, every reference, tolerance and range", "why_tests_cant": "sequence of queries at different times (the buffer is mutable)", "anchors": [{"file": "src/Solver.cpp", "symbols": ["VariableBound::get"]}]}
{"id": "C38", "title": "Kinematics are picked for the closest time knot", "statement": "For every non-empty sorted list of knot times, every finite query time and whatever the previous query, the selected kinematics object is that of a knot at minimal distance from the query (ties and tolerance aside); the search terminates and never indexes outside the list; the knots are exactly the timings last set.", "quantifier": "every sorted list, every sequence of queries", "why_tests_cant": "depends on the previous query index (stateful search)", "anchors": [{"file": "src/private/TimelySharedKinDynComputations.cpp", "symbols": ["getClosestIndex", "get", "setTimings"]}]}
{"id": "C39", "title": "Kinematic cache never serves a stale state", "statement": "Whatever the history of queries, a query at a state returns the robot quantities computed at a state within the update tolerance of the requested one; with zero tolerance the result is the one of the requested state.", "quantifier": "every history of updates and queries", "why_tests_cant": "history dependent; tolerance drift", "anchors": [{"file": "src/private/SharedKinDynComputations.cpp", "symbols": ["updateRobotState", "sameState", "setToleranceForUpdate"]}]}
{"id": "C40", "title": "Placing the feet on the ground", "statement": "When SetMinContactPointToZero succeeds the recorded lowest contact point has a height in [0, 1e-8] (and that of the returned base pose is within 2e-8 of the ground), nothing but the base height, CoM and points is changed, and the iteration terminates for every input.", "quantifier": "every initial base height and robot state", "why_tests_cant": "termination and accuracy over a continuum", "anchors": [{"file": "src/Utilities.cpp", "symbols": ["SetMinContactPointToZero"]}]}
{"id": "C41", "title": "Default initial state is statically balanced", "statement": "FillDefaultInitialState distributes the robot weight between the two feet as vertical force for every CoM position and feet placement (up to the force thresholds), with zero horizontal resultant; the points only push when the CoM is over the feet; and with parallel feet with the CoM between them the state is in exact static balance (zero moment about the CoM).", "quantifier": "every feet placement and CoM", "why_tests_cant": "division by feet distance; degenerate placements", "anchors": [{"file": "src/Utilities.cpp", "symbols": ["FillDefaultInitialState"]}]}
{"id": "C42", "title": "Translating CoM guess is rigid", "statement": "The guess returned at every time has the CoM equal to the reference, keeps all relative positions of points, base and CoM, keeps forces, joints and orientation of the initial state, has zero momentum, and is independent of previous queries.", "quantifier": "every initial state, reference, sequence of query times", "why_tests_cant": "mutable buffer makes results history dependent", "anchors": [{"file": "src/Utilities.cpp", "symbols": ["TranslatingCoMStateGuess::get"]}]}
{"id": "C43", "title": "Walking state machine: steps advance by the increment", "statement": "For non-negative step duration and horizon: after every sequence of advance calls the current target is the start plus a whole number of step increments; once planned, the next target is one increment further; the current target only changes by one increment, only after the step has lasted (step duration minus minimum dt) and when every point of the forward foot bears the threshold; time intervals are well formed; some target is active now; and the walk progresses if time advances and the forward foot is loaded.", "quantifier": "every sequence of advance calls", "why_tests_cant": "state machine over unbounded histories", "anchors": [{"file": "src/Utilities.cpp", "symbols": ["SimpleWalkingStateMachine::advance", "initialize"]}]}
{"id": "C44", "title": "Symbolic expression cache always returns fresh values", "statement": "Evaluating any expression handle always returns the value determined by the current variable values, whatever the interleaving of assignments, evaluations through other handles, handle creation and destruction.", "quantifier": "every expression DAG and every history", "why_tests_cant": "cache invalidation over unbounded histories", "anchors": [{"file": "extern/levi/include/levi/Registrar.h", "symbols": ["Registrar::isNew", "getNewCallerID", "deleteID"]}, {"file": "extern/levi/include/levi/Evaluable.h", "symbols": ["evaluateID"]}]}
{"id": "C45", "title": "Symbolic derivatives are true derivatives", "statement": "For every expression built with the algebra's operators, the expression returned by getColumnDerivative evaluates to the true derivative of that column, including derivatives of derivatives.", "quantifier": "every expression and variable", "why_tests_cant": "induction over expression trees", "anchors": [{"file": "extern/levi/include/levi/OperatorsEvaluables.h", "symbols": ["getNewColumnDerivative"]}]}
{"id": "C46", "title": "State and control containers: sizes and zeroing", "statement": "After resize(n,m) checkSize(n,m) holds, sameSize is an equivalence relation, zero keeps sizes and zeroes every value.", "quantifier": "all sizes and states", "why_tests_cant": "all sizes", "anchors": [{"file": "src/State.cpp", "symbols": ["State::resize", "checkSize", "sameSize", "zero"]}, {"file": "src/Control.cpp", "symbols": ["Control::resize"]}]}
{"id": "C47", "title": "Forward foot selection and minimum point force", "statement": "The forward foot query compares the mean positions of the feet along the given direction and the minimum point force is attained by one point of that foot and is a lower bound of all; the feet centroid is the arithmetic mean of all points.", "quantifier": "every number of points and values", "why_tests_cant": "depends on n; empty foot is undefined behaviour", "anchors": [{"file": "src/State.cpp", "symbols": ["computeFeetCentroid", "minimumPointForceOnForwardFoot"]}]}
{"id": "C48", "title": "CoM velocity reference is the momentum reference", "statement": "The cost tracks mass times the desired CoM velocity at every time; an invalid or wrongly sized reference yields a zero momentum flagged invalid.", "quantifier": "every reference provider, time, mass", "why_tests_cant": "every provider", "anchors": [{"file": "src/private/CoMVelocityCost.cpp", "symbols": ["LinearMomentumReference::get"]}]}
{"id": "C49", "title": "Solution reconstruction", "statement": "After a successful solve, the returned states and controls are those of the external solver at each time of its solution, in the same order and number, with their times, with the right sizes; a failed solve keeps the previous ones.", "quantifier": "every solution length and every history of calls with fixed numbers of joints and points", "why_tests_cant": "number of knots unbounded; buffers are reused between solves", "anchors": [{"file": "src/Solver.cpp", "symbols": ["Solver::solve", "fillSolution"]}]}
{"id": "C50", "title": "Quaternion inverse and bounds check", "statement": "The inverse quaternion function returns the conjugate, which is the group inverse of a unit quaternion and undoes its rotation, with the reported 4x4 derivative exact; the bounds check accepts every unit quaternion and whatever it accepts has entries in [-1-1e-6, 1+1e-6].", "quantifier": "every quaternion and vector", "why_tests_cant": "exact identities and acceptance over a continuum", "anchors": [{"file": "src/private/QuaternionUtils.cpp", "symbols": ["InverseQuaternion", "InverseQuaternionDerivative", "QuaternionBoundsRespected"]}]}
{"id": "C51", "title": "The default settings are valid", "statement": "For every robot model that contains the frames the defaults name and whose moving joints come first, the default settings structure satisfies every documented range and is accepted by setFromStruct.", "quantifier": "every robot model: any number of joints, with or without limits", "why_tests_cant": "the default joint limits are built by a loop over the joints of an arbitrary model", "anchors": [{"file": "src/Settings.cpp", "symbols": ["Settings::Defaults", "Settings::setFromStruct"]}]}
{"id": "C52", "title": "Symbolic expressions see the current robot state", "statement": "After the expressions server is updated for a time, the variables its expressions are evaluated at hold the robot state of the kinematics object of that time (within the update tolerance), whatever knots, constraints and times were served before; in particular a constraint that first updates the kinematics of its time sees its own state.", "quantifier": "every history of direct kinematics updates and server updates at any times", "why_tests_cant": "depends on the interleaving of updates of several knots through shared objects", "anchors": [{"file": "src/private/ExpressionsServer.cpp", "symbols": ["ExpressionsServer::updateRobotState"]}]}
{"id": "C53", "title": "Expression maps return the expression of the requested frames", "statement": "After any sequence of requests, asking the server for the expression of a pair of frames returns the expression built for that pair, and asking again returns the same one.", "quantifier": "every sequence of requests, every frame names", "why_tests_cant": "the maps are keyed by concatenated names: correctness depends on all names ever requested", "anchors": [{"file": "src/private/ExpressionsServer.cpp", "symbols": ["adjointTransform", "relativePosition", "relativeRotation", "relativeQuaternion"]}]}
{"id": "C54", "title": "Exponential weight", "statement": "The weight a*exp(b*(t-d))+c is always valid, is a+c at the time offset, is monotone in time with the sign of a*b, stays on its side of the offset c, and its distance from c scales by exp(b*h) every h.", "quantifier": "every parameter and every time", "why_tests_cant": "a continuum of times and parameters", "anchors": [{"file": "src/Utilities.cpp", "symbols": ["ExponentialWeight::get"]}]}
{"id": "C55", "title": "The costs in the problem are the costs in the settings", "statement": "When the settings are accepted and the costs configured, the optimal control problem has exactly one term for each cost the settings activate (one per contact point for the costs of a contact point) and no other; each has the overall weight, range of times, variables, weight vector and reference the settings give to that cost; configuration succeeds exactly when each active cost has usable data, independently of the other costs, and a failure leaves only terms that were asked for.", "quantifier": "every combination of active costs, any number of contact points per foot, all weights, ranges and references, any answers of the setters and of the problem", "why_tests_cant": "two dozen independent flags times the number of contact points: a swapped weight or reference only shows in the combinations that use it", "anchors": [{"file": "src/Solver.cpp", "symbols": ["setCosts"]}]}
{"id": "C56", "title": "The constraints in the problem are the constraints in the settings", "statement": "When configuration succeeds the problem has exactly one of each whole body constraint, and for each contact point exactly the friction, position, planar and normal complementarity constraints of the selected formulations, with the parameters of the settings; each contact point has exactly one planar and one normal mechanism, either a constraint or the smoothing in the dynamics; configuration succeeds exactly when the friction coefficient is positive.", "quantifier": "every selection of formulations, any number of contact points per foot, all parameters", "why_tests_cant": "combinations of formulations and contact points; a missing constraint makes the trajectory wrong without any error", "anchors": [{"file": "src/Solver.cpp", "symbols": ["setConstraints", "specifySettings"]}]}
{"id": "C57", "title": "Adjoint transform expressions and their derivatives", "statement": "The adjoint transform (and its wrench version) between two frames evaluates to the adjoint of their relative pose; differentiated with respect to the joint positions it gives the derivative of every entry, and so does that derivative differentiated once more; every other variable gives zero.", "quantifier": "every robot tree of hinges and sliders, every pair of frames, every state, every column, every joint", "why_tests_cant": "any tree, any path length, frames with any offset, a continuum of configurations", "anchors": [{"file": "src/private/AdjointTransformExpression.cpp", "symbols": ["AdjointTransformExpression::getNewColumnDerivative", "AdjointTransformDerivativeExpression::getNewColumnDerivative", "AdjointTransformWrenchExpression"]}]}
{"id": "C58", "title": "Relative Jacobian, position, rotation and quaternion expressions", "statement": "The columns of the relative Jacobian expression are the velocities of one frame with respect to the other for a unit joint velocity; position, rotation and quaternion have the values of the relative pose; the derivatives these expressions return are the derivatives of their values.", "quantifier": "every robot tree, every pair of frames, every state, every variable", "why_tests_cant": "any tree and configuration; the quaternion derivative only holds where the quaternion is differentiable", "anchors": [{"file": "src/private/RelativeJacobianExpression.cpp", "symbols": ["RelativeLeftJacobianExpression::getNewColumnDerivative"]}, {"file": "src/private/RelativePositionExpression.cpp", "symbols": ["RelativePositionExpression::getNewColumnDerivative"]}, {"file": "src/private/RelativeQuaternionExpression.cpp", "symbols": ["RelativeQuaternionExpression::getNewColumnDerivative"]}, {"file": "src/private/TransformExpression.cpp", "symbols": ["TransformExpression"]}]}
{"id": "C59", "title": "Relative and absolute velocity expressions", "statement": "The relative velocity of two frames is independent of the motion of the base and equals the relative Jacobian times the joint velocities; the absolute velocity of a frame is its velocity when the base moves with the given twist; the derivatives returned for joints, joint velocities and twist are the derivatives of these velocities.", "quantifier": "every robot tree, every frame, every state and velocity, every base twist expression that does not depend on the joints, every variable", "why_tests_cant": "a continuum of states, any tree and any path", "anchors": [{"file": "src/private/RelativeVelocityExpression.cpp", "symbols": ["RelativeLeftVelocityExpression::evaluate", "RelativeLeftVelocityExpression::getNewColumnDerivative"]}, {"file": "src/private/AbsoluteVelocityExpression.cpp", "symbols": ["AbsoluteLeftVelocityExpression", "AbsoluteLeftVelocityJointsDerivativeExpression"]}]}
{"id": "C60", "title": "Base rotation and base twist expressions", "statement": "The base rotation expression is the rotation of the normalised base quaternion, and the base twist is the velocity of the base, seen in the base, when the quaternion and the origin move with the velocities in the state; the velocity of a frame computed by default from it is the velocity of that frame.", "quantifier": "every non-zero quaternion, every quaternion velocity and linear velocity, every frame of every robot", "why_tests_cant": "an inertial angular velocity agrees with the body one at the identity and whenever the base turns around a fixed axis, the cases tests use", "anchors": [{"file": "src/private/QuaternionExpressions.cpp", "symbols": ["RotationExpression", "G_Expression", "NormalizedQuaternion", "BodyTwistFromQuaternionVelocity"]}, {"file": "src/private/ExpressionsServer.cpp", "symbols": ["ExpressionsServer::ExpressionsServer", "ExpressionsServer::absoluteVelocity"]}]}
{"id": "C61", "title": "Quaternion error expression", "statement": "The quaternion error of a frame represents the rotation of the frame seen from the desired rotation, is the identity when they coincide, and its derivatives with respect to the joints and to the base quaternion are the derivatives of its value wherever the quaternion is differentiable; other variables give zero.", "quantifier": "every robot tree, frame, state with a non-zero quaternion, desired rotation and variable", "why_tests_cant": "a continuum of states and rotations; chain rule through the normalisation", "anchors": [{"file": "src/private/QuaternionErrorExpression.cpp", "symbols": ["QuaternionErrorEvaluable::evaluate", "QuaternionErrorEvaluable::getNewColumnDerivative"]}]}
{"id": "C62", "title": "Lateral distance of the feet", "statement": "The lateral distance constraint evaluates to the chosen coordinate of the other foot seen from the reference foot, for the joints in the state it is given and whatever was computed before or by others; its Jacobians and Hessians are the derivatives of that value and vanish outside the declared patterns. The lower bound starts at zero, setMinimumDistance refuses negative distances without effect and otherwise sets it.", "quantifier": "every robot tree, pair of frames, coordinate, joint configuration, multiplier and history of calls, setters and changes of the shared state", "why_tests_cant": "a continuum of configurations and all robots; the Hessian is assembled from nested symbolic derivatives, wrong only for feet whose frame is turned with respect to the link, and is evaluated through a cache shared with other objects", "anchors": [{"file": "src/private/FeetLateralDistanceConstraint.cpp", "symbols": ["FeetLateralDistanceConstraint::FeetLateralDistanceConstraint", "FeetLateralDistanceConstraint::evaluateConstraint", "FeetLateralDistanceConstraint::constraintJacobianWRTState", "FeetLateralDistanceConstraint::constraintSecondPartialDerivativeWRTState", "FeetLateralDistanceConstraint::setMinimumDistance"]}]}
{"id": "C64", "title": "Position of a contact point", "statement": "The contact position consistency constraint evaluates to the world position of the contact point fixed in the foot minus the point in the state, for the state it is given and whatever was computed before or by others; its Jacobians and Hessians are the derivatives of that value and vanish outside the declared patterns, wherever the base quaternion is not zero. Its bounds are zero.", "quantifier": "every robot tree, foot frame, point in the foot, base position, non-zero base quaternion, joint configuration, multiplier, layout of the state and history of calls, setters and changes of the shared state", "why_tests_cant": "a continuum of configurations, all robots and all layouts; the joint Jacobian is wrong only for feet whose frame is turned with respect to the link, the quaternion block divides by the norm, and the evaluation goes through a cache shared with other objects", "anchors": [{"file": "src/private/ContactPositionConsistencyConstraint.cpp", "symbols": ["ContactPositionConsistencyConstraint::ContactPositionConsistencyConstraint", "ContactPositionConsistencyConstraint::evaluateConstraint", "ContactPositionConsistencyConstraint::constraintJacobianWRTState", "ContactPositionConsistencyConstraint::constraintSecondPartialDerivativeWRTState"]}]}
{"id": "C65", "title": "Centre of mass seen in the base", "statement": "The expression of the centre of mass in the base evaluates to the mean of the links' centres of mass weighted by their masses, whatever the pose of the base; its derivative with respect to the joints evaluates to the Jacobian of that mean, and the derivative of each column to the matrix of second derivatives, whose construction always ends. The second derivatives are symmetric.", "quantifier": "every robot tree whose joints have one degree of freedom each, every distribution of masses, base pose, joint configuration, pair of joints and amount of recursion between the constructors", "why_tests_cant": "a continuum of configurations and all trees; the columns of joints further from the base are borrowed from other Hessians by symmetry, so that an error shows only for some trees, and constructors call each other recursively", "anchors": [{"file": "src/private/CoMInBaseExpression.cpp", "symbols": ["ComInBaseHessianEvaluable::ComInBaseHessianEvaluable", "ComInBaseHessianEvaluable::evaluate", "CoMInBaseJacobianEvaluable::evaluate", "CoMInBasePositionEvaluable::evaluate"]}]}
{"id": "C63", "title": "Constraint on the position of the centre of mass", "statement": "The constraint on the position of the centre of mass evaluates to the centre of mass for the base pose and joints of the state minus the centre of mass of the state; its Jacobians are the partial derivatives of that value and vanish outside the declared patterns; its second derivatives, weighted by the multipliers, are those of the weighted value and stay in the declared patterns. The bounds are plus and minus half the tolerance last set.", "quantifier": "every robot tree, distribution of masses, layout of the variables, non-zero base quaternion (normalised or not), base position, joints, multipliers, content of the output matrices inside the pattern, and every history of previous calls and of other users of the shared computations", "why_tests_cant": "a continuum of states and all trees; values computed by two routes (iDynTree's Jacobian for first derivatives, symbolic expressions for second ones) must agree for every configuration and after every history of calls", "anchors": [{"file": "src/private/CoMPositionConstraint.cpp", "symbols": ["CoMPositionConstraint::evaluateConstraint", "CoMPositionConstraint::constraintJacobianWRTState", "CoMPositionConstraint::constraintSecondPartialDerivativeWRTState", "CoMPositionConstraint::setEqualityTolerance", "setSparsity"]}]}
{"id": "C66", "title": "Cost on the orientation of a frame", "statement": "The cost on the orientation of a frame evaluates to half the weight times the squared distance between the quaternion of the rotation from the desired orientation to the orientation of the frame in the world and the quaternion of the identity; it is zero exactly when the frame has the desired orientation (positive weight), and, when quaternions are taken with a non-negative real part, equals the weight times one minus the cosine of half the angle between the two. Its gradient and Hessian with respect to the state are those of that value wherever the quaternion of the error is differentiable (everywhere but half a turn away, for such quaternions), they are zero outside the quaternion of the base and the joints and stay in the declared patterns; the cost does not depend on the control. When the reference or the weight is not available at a time, evaluation and derivatives report failure.", "quantifier": "every robot tree, frame, layout of the variables, non-zero base quaternion (normalised or not), base position, joints, desired rotation or trajectory of rotations, time-varying weight, time, and every history of previous calls, changes of the reference and weight, and of other users of the shared computations", "why_tests_cant": "a continuum of states, references and robots; the gradient is computed with iDynTree's Jacobian and the Hessian by deriving expressions, the two must agree everywhere and after every history; the transposed block is only right because mixed derivatives of the error commute", "anchors": [{"file": "src/private/FrameOrientationCost.cpp", "symbols": ["FrameOrientationCost::costEvaluation", "FrameOrientationCost::costFirstPartialDerivativeWRTState", "FrameOrientationCost::costSecondPartialDerivativeWRTState", "FrameOrientationCost::setDesiredRotation", "FrameOrientationCost::setDesiredRotationTrajectory", "FrameOrientationCost::setTimeVaryingWeight"]}, {"file": "src/private/QuaternionErrorExpression.cpp", "symbols": ["QuaternionErrorEvaluable"]}]}
{"id": "C67", "title": "Cost on the angular velocity of a frame", "statement": "The cost on the angular velocity of a frame evaluates to half the squared norm of the angular velocity of the frame plus the gain times the vector of the skew-symmetric part of the rotation from the desired orientation to the one of the frame; the value and the gradients are functions of the time, the state and the control of the call, whatever was called before; the gradient with respect to the state and the one with respect to the control are those of that value, zero outside the declared entries; the second derivatives with respect to the control are those of the value. Without a reference at a time, evaluation and derivatives report failure.", "quantifier": "every robot tree, frame, gain, layout of the variables, non-zero base quaternion, joints, velocities, desired rotation trajectory, time, and every history of previous calls, changes of the reference and of other users of the shared computations", "why_tests_cant": "a continuum of states, velocities and robots; what the cost returns depends on what other terms left in the shared state, so a test that calls the terms in one order cannot see it", "anchors": [{"file": "src/private/FrameAngularVelocityCost.cpp", "symbols": ["FrameAngularVelocityCost::costEvaluation", "FrameAngularVelocityCost::costFirstPartialDerivativeWRTState", "FrameAngularVelocityCost::costFirstPartialDerivativeWRTControl", "FrameAngularVelocityCost::costSecondPartialDerivativeWRTControl", "FrameAngularVelocityCost::setDesiredRotationTrajectory"]}]}
{"id": "C68", "title": "Derivative of the velocity of a frame with respect to the joints", "statement": "getFrameVelJointsDerivative returns, for every frame of the model, the 6 x n matrix of the derivatives of the body velocity of the frame with respect to the joint positions, the velocities of base and joints being kept; a joint that does not move the frame has a zero column; an index that is not one of a frame is reported as a failure.", "quantifier": "every robot tree, floating base, frame, joint positions, base pose and velocities", "why_tests_cant": "a continuum of configurations and every tree: a finite difference test checks a few points of one robot", "anchors": [{"file": "src/private/SharedKinDynComputations.cpp", "symbols": ["SharedKinDynComputations::getFrameVelJointsDerivative", "SharedKinDynComputations::updateRobotStatePrivate", "SharedKinDynComputations::fillJointsInfo"]}]}
{"id": "C69", "title": "Derivative of the momentum with respect to the joints", "statement": "getLinearAngularMomentumJointsDerivative returns the 6 x n matrix of the derivatives, with respect to the joint positions, of the total linear and angular momentum of the robot seen in the base frame, the velocities of base and joints being kept.", "quantifier": "every robot tree with every inertia of the links, floating base, joint positions, base pose and velocities", "why_tests_cant": "a continuum of configurations and every tree and inertia: a finite difference test checks a few points of one robot", "anchors": [{"file": "src/private/SharedKinDynComputations.cpp", "symbols": ["SharedKinDynComputations::getLinearAngularMomentumJointsDerivative", "SharedKinDynComputations::updateChildBuffersForMomentumDerivative"]}]}
{"id": "C70", "title": "Angular momentum about the centre of mass", "statement": "CentroidalMomentumConstraint evaluates to the difference between the angular momentum of the robot about its centre of mass, seen with the orientation of the world, and the angular part of the momentum of the state; its Jacobians with respect to state and control are exact, follow the declared sparsity and do not depend on the calls made before; the Hessians of the value weighted with the multipliers, with respect to state, control and both, are exact and stay inside their declared sparsity; the bounds are zero, or plus and minus half the tolerance.", "quantifier": "every robot tree with every inertia, floating base, layout of the variables, state with a non-zero base quaternion, control, multipliers and history of calls", "why_tests_cant": "a continuum of states and controls, every tree and inertia, and every history of the internal buffers", "anchors": [{"file": "src/private/CentroidalMomentumConstraint.cpp", "symbols": ["CentroidalMomentumConstraint::evaluateConstraint", "CentroidalMomentumConstraint::constraintJacobianWRTState", "CentroidalMomentumConstraint::constraintJacobianWRTControl", "CentroidalMomentumConstraint::setEqualityTolerance", "CentroidalMomentumConstraint::Implementation::setSparsity"]}, {"file": "src/private/QuaternionExpressions.cpp", "symbols": ["RotationExpression", "G_Expression", "BodyTwistFromQuaternionVelocity"]}]}
{"id": "C71", "title": "Hessians evaluated in parallel do not depend on the schedule", "statement": "The Hessians of CentroidalMomentumConstraint are evaluated by several asynchronous tasks. If each task ends at some time, the call ends, each result is taken exactly once from its future, and the matrix is the one the sequential evaluation gives: every block at its variables, everything else untouched. If a task never ends, the call never ends. A future is never used after its result has been taken.", "quantifier": "every schedule of the tasks (which futures are ready at which poll), layout, state, control, multipliers and content of the matrix", "why_tests_cant": "the completion order of the threads is not under the control of a test, and the number of polls is unbounded", "anchors": [{"file": "src/private/CentroidalMomentumConstraint.cpp", "symbols": ["CentroidalMomentumConstraint::constraintSecondPartialDerivativeWRTState", "CentroidalMomentumConstraint::constraintSecondPartialDerivativeWRTStateControl"]}]}
{"id": "C72", "title": "Momentum in the base frame as an expression, with its first and second derivatives", "statement": "MomentumInBaseExpression evaluates to the momentum of the robot seen in the base frame. The expressions its getColumnDerivative returns are exact: the derivative with respect to the joint positions (whose columns are those evaluate() takes from SharedKinDynComputations), to the joint velocities, to any variable the base twist depends on, the derivative of the latter with respect to the joints, and for every joint the derivative of its column with respect to all joints - also for the joints of other branches and for the joints further from the base, whose columns are taken from other double derivatives; the construction of those ends.", "quantifier": "every robot tree with every inertia and floating base, joint positions and velocities, base twist, differentiable dependency of the base twist, and every pair of joints", "why_tests_cant": "a continuum of states, every tree and inertia, and a recursion between constructors whose depth depends on the tree", "anchors": [{"file": "src/private/MomentumInBaseExpression.cpp", "symbols": ["MomentumInBaseEvaluable", "MomentumInBaseJointsDerivativeEvaluable", "MomentumInBaseBaseTwistDerivativeEvaluable", "MomentumInBaseJointsVelocityDerivativeEvaluable", "MomentumInBaseBaseTwistJointsDerivativeEvaluable", "MomentumInBaseJointsDoubleDerivativeEvaluable"]}, {"file": "src/private/ExpressionsServer.cpp", "symbols": ["ExpressionsServer::compositeRigidBodyInertia", "ExpressionsServer::momentumInBaseJointsDoubleDerivative"]}]}
{"id": "C73", "title": "Derivative of the static torques with respect to the joints", "statement": "The static torques of the robot under given external wrenches are the components, along the joint axes, of the wrenches between the links that keep it still in the field of gravity; these wrenches exist and are unique for every tree. The matrix returned by getStaticForcesJointsDerivative is the derivative of every one of these torques with respect to every joint position, at all joint positions, the external wrenches being kept constant in the frames of their links.", "quantifier": "every robot tree with every inertia, every traversal order and floating base link, every gravity and base orientation, all external wrenches and all joint positions, every pair of joints", "why_tests_cant": "a continuum of states and every tree, inertia and wrench; the routine accumulates in an order that depends on the tree", "anchors": [{"file": "src/private/SharedKinDynComputations.cpp", "symbols": ["SharedKinDynComputations::getStaticForcesJointsDerivative", "SharedKinDynComputations::computeChildStaticForceDerivative", "SharedKinDynComputations::computeStaticForces"]}]}
{"id": "C74", "title": "Cost on the static torques", "statement": "StaticTorquesCost evaluates to half the weighted sum of the squares of the torques that hold the robot still under its weight and the contact forces of its feet, applied where the contact points are in the world; its state gradient is the gradient of that value, wherever the base quaternion is not zero and no foot is turned by exactly half a turn, and its control gradient is zero, whatever the calls made before; setWeights refuses a vector of another size and then changes nothing.", "quantifier": "every robot tree with every inertia and gravity, two feet with any number of contact points, every layout of the state, state, weights and history of calls", "why_tests_cant": "a continuum of states and forces, every tree and inertia, and every history of the buffers", "anchors": [{"file": "src/private/StaticTorquesCost.cpp", "symbols": ["StaticTorquesCost::costEvaluation", "StaticTorquesCost::computeStaticTorquesJacobian", "StaticTorquesCost::costFirstPartialDerivativeWRTState", "StaticTorquesCost::costFirstPartialDerivativeWRTControl", "StaticTorquesCost::setWeights"]}]}
