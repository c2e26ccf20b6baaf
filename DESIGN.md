# Formal model of ami-iit/dynamical-planner — design

Source: `/repo` (C++), read as text; nothing is built or run.  The model is written in Coq 8.16.1
(`/verif/rocq/theories`, logical name `Verif`).

## Approach

* Every C++ function in scope becomes a total Gallina function (or a `step` of a state machine) whose comment
  cites the file and lines it models.  Undefined behaviour (reads outside a vector, null dereference, empty
  `begin()`) is a *distinct outcome* (`None`/`UB`), never a default value that looks normal.
* `double` arithmetic in numeric code is modelled by the real numbers `R` (rounding is not modelled; see "Not
  modelled").  Where the property is about comparison of unvalidated doubles (settings, tolerances) the model uses
  an extended type with NaN.
* Optimisation vectors are `nat -> R` (entry index -> value) with an explicit dimension; matrices `nat -> nat -> R`.
  Methods that write into a caller-supplied matrix are modelled as a chain of updates of that matrix.
* Independent specification (`Spec.v`): "the k-th partial derivative of f at x is d" is Coquelicot's
  `is_derive (fun t => f (x with entry k set to t)) (x k) d`; Jacobians, gradients, Hessians, sparsity soundness
  are stated only with it.
* External libraries (iDynTree kinematics, Eigen's QR, the optimal control solver) are explicit function
  parameters (Section variables, generalised at section end); every assumption on them is a hypothesis of the theorem.
* Properties the unchanged code violates are proved as `..._refuted` with a concrete witness, next to the strongest
  true variant.

## Per property plan

Files `Spec*.v` hold the independent specifications, `*Model.v` (or the file named here) the model of the code,
`Prop*.v` the theorems named `Cnn_...` with their witnesses and `Print Assumptions`.

| id | specification / model / theorems | how it is proved |
|----|------------|------------------|
| C01, C02 | `SpecLayout` / `Labeller` / `PropLayout` | invariant over every sequence of labeller operations |
| C03 | `SpecLayout` / `Layout` / `PropLayout` | induction on the number of points; injectivity of decimal printing |
| C04, C05 | `SpecState` / `Layout` / `PropLayout` | round trips entry by entry, generic over the labellers built by C03 |
| C06, C07 | `Spec` / `Smoothing` / `PropConstraints` | Coquelicot derivatives of exp-based tanh/sech |
| C08, C09, C10, C50 | `SpecQuaternion` / `Quaternion` / `PropQuaternion` | algebraic identities plus derivatives |
| C11–C18 | `SpecConstraints` / `ConstraintsModel` / `PropConstraints`, `PropLayout` (built layout) | value/Jacobian/Hessian/pattern of each constraint against `Spec` for every state the object can be in |
| C19 | `SpecDynamics` / `DynamicsModel`, `DynamicsLayout` / `PropDynamics` | block-structured right hand side for arbitrary point lists; layout discharged from the structure the solver builds |
| C20–C25, C48 | `SpecCosts` / `CostsModel` / `PropCosts`, `PropLayout` | as constraints; sums over arbitrary lists of ranges |
| C26–C28 | `SpecGeometry` / `RectFoot` / `PropRectFoot` | state machine + real arithmetic |
| C29, C30, C54 | `SpecReference` / `PosRef` / `PropPosRef` | list search; heap of shared data blocks |
| C31–C33, C51 | `SpecSettings` / `SettingsModel` / `PropSettings` | boolean validator with NaN-aware doubles, out-of-bounds outcome |
| C34, C35, C49 | `SpecState`, `SpecContainers` / `SolverModel` / `PropSolver` | invariants over histories of calls, answers of the external solver as arguments |
| C36, C37 | `SpecBounds` / `BoundsModel` / `PropBounds` | per-variable bounds over the layout |
| C38 | `SpecTimely` / `Timely` / `PropTimely` | fuelled search, termination and optimality |
| C39 | `SpecKinDyn` / `KinDynCache` / `PropKinDyn` | invariant over histories |
| C40 | `SpecUtilities` / `GroundModel` / `PropGround` | recursion with a contraction measure |
| C41 | `SpecUtilities` / `FillModel` / `PropFill` | static balance of the wrench distribution |
| C42 | `SpecUtilities` / `GuessModel` / `PropGuess` | histories of calls of the guess object |
| C43 | `SpecWalking` / `WalkingModel` / `PropWalking` | state machine invariants, liveness by a measure |
| C44 | `SpecExpressions` / `LeviCache` / `PropLevi` | heap invariant and refinement over histories |
| C45 (partial) | `SpecDerivatives` (formulas, meaning, `Derive`) / `LeviExpr`, `LeviBuild` (every operator and getNewColumnDerivative of levi, fuelled), `LeviDerivCache` / `LeviDeriv`, `LeviBuildProofs`, `PropDeriv` | one soundness relation `post` per command, preserved by one call given the nested calls (`call_sound`), induction on the formula; four refuted corners; termination not proved |
| C46, C47 | `SpecContainers` / `StateModel` / `PropState` | lists |
| C52, C53 | `SpecKinDyn` / `ServerModel` / `PropServer` | refinement of the expression server over histories |
| C55, C56 | `SpecProblem` / `ProblemModel`, `ProblemProofs` / `PropProblem` | the functions as lists of checked actions; list inclusion both ways, distinct names |
| C57 (partial), C58, C59 | `SpecRigid` (poses, adjoints, robots as trees, `moves`, `frame_velocity`) / `KinModel` / `Rigid`, `RigidCalc`, `KinTree`, `KinLib`, `QuatCurve`, `KinMotion`, `KinUsers`, `KinProofs`; `KinExist`, `KinInstance` (a concrete arm) / `PropKin` | rigid body algebra, induction on the path of the traversal, derivatives along joints; iDynTree's values as oracles with the contract `kinematics` |
| C60 (partial), C61 | `SpecBase` / `BaseModel` / `BaseProofs`, `PropBase` | polynomial identities modulo the unit norm, derivatives along curves of quaternions; C59 for the velocity of the frames |
| C62 (partial) | `SpecFeet` / `FeetModel`, `SymModel` (levi's derivatives with the classes' own derivatives) / `SymProofs`, `SymKin`, `MixLib` (symmetry of mixed derivatives), `FeetProofs`, `PropFeet`, `PropSym` | structural induction on formulas; induction on the path for the symmetry of second derivatives; invariant over histories |
| C64 (partial) | `SpecFeet` / `ContactModel`, `SymModel` / `RatLib` (derivatives of the rotation of a normalised quaternion), `ContactProofs`, `ContactCode`, `PropContact` | structural induction on formulas, symmetry of mixed derivatives, invariant over histories |
| C65 | `SpecCom` / `ComModel` / `ComLib` (derivatives along the tree), `ComProofs` (the loops), `ComHess`, `ComCode`, `PropCom` | induction on paths of the tree, well-founded recursion of the constructors, symmetry of mixed derivatives |
| C63 | `SpecCom` / `ComPosModel` / `ComPosProofs`, `PropComPos` | soundness of the symbolic derivation (C55-C58) for the second derivatives, uniqueness of derivatives to compare iDynTree's Jacobian with the symbolic one, invariant on the buffers for the histories |
| C66 | `SpecOri` / `OriModel` / `SymMove`, `OriProofs`, `OriMix`, `OriCode`, `OriExist`, `PropOri` | soundness of the symbolic derivation for the second derivatives, quaternion algebra for the closed forms and for the symmetry of the mixed derivatives, uniqueness of derivatives to compare iDynTree's Jacobian with the closed forms, invariant over histories |
| C67 | `SpecAng` / `AngModel` / `AngProofs`, `PropAng` | soundness of the symbolic derivation for the gradients, C59/C60 for the velocity, uniqueness of the velocity of a frame, invariant over histories; witnesses on the arm for the refutations |
| C68, C69 | `SpecMom` / `MomModel` / `MomProofs`, `PropMom` | the loop up the tree unfolded along the path, derivative of velocities and transforms along the path (`KinMotion`, `KinTree`), induction over the links |
| C70 | `SpecCmm` / `CmmModel`, `CmmExprModel` / `CmmProofs`, `PropCmm`, `CurveLib`, `CmmExprProofs`, `PropCmmHess` | momentum as a sum over the links, derivative of the centroidal transform and of the momentum (C69), invariant on the buffers over the reachable objects; Hessians: the expressions are differentiable twice along curves of all their variables (closure under the operators), chain rule through the normalised quaternion and the centre of mass, Schwarz |
| C71 | `PollModel` / `PropPoll` | the loop with flags and futures under an arbitrary schedule; invariant (results taken so far), induction over the iterations, commutation of disjoint writes |
| C72 | `SpecMib` / `MibModel` / `MibLib`, `MibProofs`, `MibDouble`, `PropMib` | per link: first and second derivative of the momentum, case split on the position of the two joints on the way to the base; then the loops (each joint once per link) and induction on the depth for the recursion of the constructors |
| C73 | `SpecStatic` / `StaticModel` / `StaticProofs`, `StaticCalc`, `PropStatic` | invariant of the loop over the links in reverse order (row l holds the final value once all links below l are visited); then induction from the leaves on the balance of the wrenches; existence and uniqueness by recursion on the depth |
| C74 | `SpecTorque` / `TorqueModel`, `TorqueJoints` / `TorqueProofs`, `PropTorque`, `PropTorqueJoints`, `PropTorqueQuaternion` | a change of one external wrench changes the wrenches between the links on the way to the base (induction from the leaves); duality between the adjoints of twists and wrenches gives the frame Jacobian; then the loops over the contact points and an invariant of the gradient buffer; for the joints C73 with the wrenches kept in the links, plus the product rule on the change of the wrench of each foot, which vanishes at the point; for the quaternion the linearity of the balance in the acceleration and the derivative of a vector seen from the base |

## Trusted base

* **Kernel**: Coq 8.16.1's kernel (`coqc`, and `vm_compute` in a few concrete examples) and its OCaml runtime.
* **Axioms**: `Print Assumptions` is run on every `Cnn_` theorem inside the `Prop*.v` file that proves it.  The only
  names that ever appear are, all from Coq's standard library:
  `ClassicalDedekindReals.sig_not_dec`, `ClassicalDedekindReals.sig_forall_dec` (construction of the reals),
  `FunctionalExtensionality.functional_extensionality_dep`, `Classical_Prop.classic` (through Coquelicot's derivative
  lemmas and `Reals`).  Theorems about lists, labellers, heaps and state machines without reals are closed under the
  global context.  No axiom, parameter, functor or module type is declared here; section variables are generalised
  into the theorems that use them.
* **Libraries**: the standard library and Coquelicot (definitions and theorems only; `is_derive` appears in the
  statements through `Spec.v`).
* **The translation** from C++ to Gallina, done by hand, one definition per function with the cited lines.  It is
  tested by mutation (`seeded/LOG.jsonl`), which tests the theorems, not the translation.
* **The specification files** `Spec*.v`.

### Modelled

VariablesLabeller, HyperbolicTangent/Secant, SmoothingFunction, QuaternionUtils, PositionReferenceGenerator,
RectangularFoot, State/Control, Settings (validation, defaults), SharedKinDynComputations and
TimelySharedKinDynComputations (cache logic), ExpressionsServer (cache logic), Solver (variable structure, bounds,
guesses, life cycle), Utilities (ground placement, initial state filling, translating guess, walking state machine),
setCosts, setConstraints, the adjoint, relative Jacobian, position, rotation, quaternion and velocity expressions and the
absolute velocity expression with their derivatives, QuaternionExpressions, the base expressions of ExpressionsServer,
the quaternion error expression, the centre of mass in the base (CoMInBaseExpression) with its Jacobian and Hessian,
DynamicalConstraints, the constraints ContactForceControl, ContactFriction, NormalVelocityControl,
PlanarVelocityControl, ClassicalComplementarity, ClassicalPlanarComplementarity, DynamicalComplementarity,
QuaternionNorm, FeetRelativeHeight, FeetLateralDistance, ContactPositionConsistency, CoMPosition, SharedKinDynComputations::getFrameVelJointsDerivative and getLinearAngularMomentumJointsDerivative, CentroidalMomentumConstraint, its loops over asynchronous tasks, MomentumInBaseExpression, the static torque derivative of SharedKinDynComputations, StaticTorquesCost, the costs CoMVelocity, FrameAngularVelocity (value, gradients), FrameOrientation, Complementarity, FeetDistance, FootYaw, ForceMean,
ForceRatio, JointsVelocityForPostural, MeanPointPosition, PhantomForces, Swing, the evaluation cache of levi, its
operators, its symbolic derivatives and their cache (every evaluable except the compiled ones; C45).

### Not modelled

* Floating point rounding, overflow and signed zero: `double` is `R` (with NaN/infinities added only in
  `SettingsModel`, `Timely`, where comparisons of unvalidated numbers matter).
* iDynTree (kinematics, QR, rotations, optimal control problem, integrators, transcription), Ipopt, Eigen, YARP,
  matioCpp, the visualizer and the logger: oracles, or absent.
* levi: squeeze/compile (AutogeneratedEvaluable, TreeExpander), IndependentVariable wrappers, CastEvaluable as a node,
  static dimensions (apart from "arithmetic type or not" for products), and the termination of the construction of a
  derivative: `exec` has fuel, and a failed assertion, an out of range access and an exhausted fuel are all `None`.
* Threads, allocation failure, exceptions, unbounded integers (`size_t` is `nat`), printing.

### Findings (behaviour of the code that contradicts the natural reading; each has a `_refuted` theorem or a witness)

* C14: the state Hessian of PlanarVelocityControlConstraints pairs multipliers with the wrong limits and can use a stale height.
* C19: DynamicalConstraints' state Jacobian pattern misses the (fz,fz) entries and declares a quaternion block that is never written.
* C21: the Hessian of PhantomForcesCost misses a factor `fz`.
* C24: FootYawCost subtracts the construction yaw instead of adding it (wrong for tilted feet).
* C28: a centre of pressure at a corner loses the yaw moment.
* C31: NaN or zero horizon accepted; missing references of active costs accepted; unrelated reference required.
* C33: fewer velocity limits than position limits are read out of bounds.
* C34/C35/C49: a specifySettings that fails half way leaves a mixture of old and new objects; pending guesses keep the
  old variable structure; changing the number of points leaves stale points or writes out of bounds.
* C36/C37: `forceMaximumDerivative` is not validated; the active part of a range is measured from time 0; inside the box
  the minimum CoM height is dropped.
* C38: stale knots after setting fewer timings; NaN time and empty timings read outside.
* C39: reloading a model, gravity drift below tolerance and a refused state leave stale values.
* C40: no contact points: the recursion never ends; returned pose slightly below the ground.
* C41: laterally aligned CoM and feet give NaN forces with a `true` answer.
* C42: an invalid reference is reported valid; the returned reference is shared and writable.
* C43: a negative step duration is accepted.
* C44: assigning an empty expression of another type gives back the caller id but keeps using it.
* C45: a quotient has the columns of its denominator; exponents closer to 1 than 1e-15 count as 1; variables of the same
  name are confused, and the cache of derivatives is keyed by the name alone.
* C52/C53: the two-argument update keeps the variables of another knot; name maps are keyed by concatenated names.
* C55: the force ratio cost is added with the weight of the force mean cost (its own weight is never read); the angular
  velocity cost is added with its default reference when the desired rotation is missing.
* C56: a friction coefficient of zero is valid for the settings and makes the solver fail; a negative minimum distance of
  the feet is replaced by zero.
* C57: the derivative of the adjoint towards an additional frame forgets the offset of the frame for the first joint of
  the walk (AdjointTransformExpression.cpp:253-254, 379-380); a joint with an index not smaller than the number of
  degrees of freedom is an access outside the vector of columns.
* C60: the base twist of ExpressionsServer (ExpressionsServer.cpp:83) has the sign of the skew matrix of the inertial
  angular velocity, while the rest of the code uses the body one; FrameAngularVelocityCost uses it.
* C62: the Hessian of FeetLateralDistanceConstraint goes through the derivative of the relative rotation, that is the one of
  the adjoint transform (C57): it is wrong for feet whose frame is turned with respect to the axis of the last joint.
* C64: ContactPositionConsistencyConstraint takes the joint derivative of the relative position through the relative rotation
  and the adjoint's columns (C57): its joint Jacobian and Hessian are wrong for feet whose frame is turned with respect to
  the axis of a joint of its link (witness: true derivative 0, the code writes -1).
* C65: ComInBaseHessianEvaluable sizes its columns by the degrees of freedom and indexes them by joint: with a fixed joint
  between the base and a moving link it writes past the end (C65_fixed_joint_refuted).  CoMInBaseJacobianEvaluable returns a
  6-row zero for the derivative of a 3-row column with respect to another variable (never reached through levi's
  isDependentFrom).
* ExpressionsServer::quaternionError caches by the name of the frame only (ExpressionsServer.cpp:514-528): two costs on the same
  frame with different variables for the desired quaternion would share the expression of the first (not formalised; C66 is about one cost).
* FrameAngularVelocityCost::updateRobotState writes the base pose and the joints of the state but never the velocities of the control
  (FrameAngularVelocityCost.cpp:44-60): the cost is evaluated with whatever velocities another term left in the shared state (C67_history_independent_refuted), it
  declares no second derivatives with respect to the control although the cost is quadratic in the velocities (C67_control_hessian_refuted).
* getFrameVelJointsDerivative and getLinearAngularMomentumJointsDerivative index jointsInfos, of the size of the degrees of freedom, with the index of
  the joint (SharedKinDynComputations.cpp:528, 621): a model with a fixed joint is read out of bounds (C68_fixed_joint_undefined, C69_fixed_joint_undefined).
* CentroidalMomentumConstraint evaluates several levi expressions that share sub-expressions (and their caches) and one
  ExpressionsServer in parallel threads (std::async, lines 492-494 and 550-555) without synchronisation: a data race the model does not
  cover (C71 takes the value of a task as given).
* ExpressionsServer::momentumInBaseJointsDoubleDerivative caches by column only (lines 639-654): asked for two different base twists it
  returns the expression of the first one. The repository uses one base twist only.
* StaticTorquesCost.cpp:62-63, 202: `contactWrenches(link) = ...` is an assignment, so with both feet on the same link the forces of the
  left foot are lost (C74_same_link_refuted). The repository puts them on two links.
* StaticTorquesCost.cpp:119-124 multiplies the asQuaternion of f_T_a and the one of its inverse as if they were conjugate: when a foot is turned by
  exactly half a turn both are the same quaternion and the part of the forces in the block of the joints changes sign (C74_half_turn_refuted).
* Observed while reading, not formalised: `setOptimizer` after `specifySettings` leaves the old
  infinities in the bounds; timings computed from the initial time at specifySettings are stale after setInitialState;
  the default settings list the contact points in another order than RectangularFoot's corners.
