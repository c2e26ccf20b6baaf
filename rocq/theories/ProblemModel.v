(** Model of setCosts and setConstraints (src/Solver.cpp:384-1126) and of the configuration of the dynamics
    (src/Solver.cpp:1445-1463).

    Each function is the list of the actions it performs, in order: it stops at the first refused one.
    Simplifications: the constructors of the costs and of the constraints only record their arguments (what they do with
    them is modelled in CostsModel, ConstraintsModel and DynamicsModel); the expression server and the shared kinematics
    they all receive are left out; the foot and index given to a cost of one contact point are its name. *)
From Coq Require Import String Reals List Arith Bool.
From Verif Require Import SpecState SpecSettings SpecLayout SpecProblem Labeller.
Import ListNotations.
Local Open Scope R_scope.

(** What OptimalControlProblem::addLagrangeTerm and addConstraint receive. *)
Record term := mkTerm { t_cost : cost; t_weight : R; t_range : option interval; t_data : list datum }.
Record restriction := mkRestriction { r_limit : limit; r_data : list datum }.

Definition side_name (s : side) : string := match s with Left => "Left" | Right => "Right" end.
(** The names given to the constructors of Cost and Constraint (one per class, and Solver.cpp for the L2NormCosts). *)
Definition cost_name (c : cost) : string :=
  match c with
  | KCoM => "CoMCost"                                   (* Solver.cpp:388 *)
  | KCoMVelocity => "CoMVelocity"                       (* CoMVelocityCost.cpp:67 *)
  | KFrameOrientation => "FrameOrientation"             (* FrameOrientationCost.cpp:87 *)
  | KForceMean s i => "ForceMean" ++ side_name s ++ decimal i           (* ForceMeanCost.cpp:35 *)
  | KForceRatio s i => "ForceRatio" ++ side_name s ++ decimal i         (* ForceRatioCost.cpp:36 *)
  | KJointsRegularization => "JointsRegularizations"    (* Solver.cpp:484 *)
  | KJointsVelocity => "JointsVelocity"                 (* Solver.cpp:506 *)
  | KStaticTorques => "StaticTorques"                   (* StaticTorquesCost.cpp:211 *)
  | KForceDerivative s i => "ForceDerivative" ++ side_name s ++ decimal i  (* Solver.cpp:547,570 *)
  | KPointAcceleration s i => "Acceleration" ++ side_name s ++ decimal i   (* Solver.cpp:597,621 *)
  | KSwing s i => "Swing" ++ side_name s ++ decimal i                   (* SwingCost.cpp:29 *)
  | KPhantomForces s i => "PhantomForces" ++ side_name s ++ decimal i   (* PhantomForcesCost.cpp:35 *)
  | KMeanPointPosition => "MeanPointPosition"           (* MeanPointPositionCost.cpp:34 *)
  | KFootYaw s => side_name s ++ "FootYawCost"          (* FootYawCost.cpp:34 *)
  | KFeetDistance => "FeetDistance"                     (* FeetDistanceCost.cpp:32 *)
  | KVelocityForPostural => "JointsVelocityForPostural" (* JointsVelocityForPosturalCost.cpp:30 *)
  | KComplementarity s i => "Complementarity" ++ side_name s ++ decimal i  (* ComplementarityCost.cpp:33 *)
  | KBasePosition => "RootCost" | KBaseQuaternion => "BaseOrientationCost"     (* Solver.cpp:763,787 *)
  | KFrameAngularVelocity => "FrameAngularVelocity"     (* FrameAngularVelocityCost.cpp:97 *)
  | KBaseLinearVelocity => "BaseLinearVelocityCost" | KBaseQuaternionVelocity => "BaseQuaternionVelocityCost"  (* 819,844 *)
  | KAngularMomentum => "AngularMomentumCost"           (* 865 *)
  end%string.
Definition limit_name (c : limit) : string :=
  match c with
  | LCentroidalMomentum => "CentroidalMomentum"         (* CentroidalMomentumConstraint.cpp:262 *)
  | LCoMPosition => "CoMPosition"                       (* CoMPositionConstraint.cpp:111 *)
  | LFeetLateralDistance => "FeetLateralConstraint"     (* FeetLateralDistanceConstraint.cpp:82 *)
  | LQuaternionNorm => "QuaternionNorm"                 (* QuaternionNormConstraint.cpp:32 *)
  | LFeetRelativeHeight => "MaxRelativeHeight"          (* FeetRelativeHeightConstraint.cpp:33 *)
  | LPlanarVelocity s i => "PlanarVelocityControlBounds" ++ side_name s ++ decimal i        (* PlanarVelocityControlConstraints.cpp:39 *)
  | LClassicalPlanar s i => "ClassicalPlanarComplementarity" ++ side_name s ++ decimal i    (* ClassicalPlanarComplementarityConstraint.cpp:36 *)
  | LNormalVelocity s i => "NormalVelocityControlBounds" ++ side_name s ++ decimal i        (* NormalVelocityControlConstraints.cpp:38 *)
  | LDynamicalComplementarity s i => "DynamicalComplementarity" ++ side_name s ++ decimal i (* DynamicalComplementarityConstraint.cpp:35 *)
  | LForceControl s i => "ForceControlBounds" ++ side_name s ++ decimal i                   (* ContactForceControlConstraints.cpp:40 *)
  | LClassicalComplementarity s i => "ClassicalComplementarity" ++ side_name s ++ decimal i (* ClassicalComplementarityConstraint.cpp:36 *)
  | LFriction s i => "ContactFriction" ++ side_name s ++ decimal i                          (* ContactFrictionConstraint.cpp:33 *)
  | LPointPosition s i => "ContactPositionConsistency" ++ side_name s ++ decimal i          (* ContactPositionConsistencyConstraint.cpp:148 *)
  end%string.

(** ** Running a list of actions *)
Section Run.
Context {T : Type}.
Variable name : T -> string.
Variable accepts : T -> bool.        (* the optimal control problem, names apart *)

Inductive action :=
| Check (ok : bool)                  (* a setter whose result is tested *)
| Assert (ok : bool)                 (* an assertion, or an access to a vector *)
| Add (t : T).                       (* addLagrangeTerm / addConstraint: refuses a name already in the problem *)
Inductive outcome := Returned (ok : bool) (added : list T) | Aborted (added : list T).
Fixpoint perform (l : list action) (added : list T) : outcome :=
  match l with
  | [] => Returned true added
  | Check b :: r => if b then perform r added else Returned false added
  | Assert b :: r => if b then perform r added else Aborted added
  | Add t :: r => if existsb (fun t' => String.eqb (name t') (name t)) added || negb (accepts t) then Returned false added
                  else perform r (added ++ [t])
  end.
End Run.
Arguments action : clear implicits.
Arguments outcome : clear implicits.

Definition when {A} (b : bool) (l : list A) : list A := if b then l else [].
(** for (size_t i = 0; i < n; ++i) *)
Definition for_points {A} (n : nat) (body : nat -> list A) : list A := flat_map body (seq 0 n).
Definition present (o : object) : bool := match o with Some _ => true | None => false end.

Section Costs.
Variable st : problem_settings.
Variables SL CL : labeller.                                   (* stateStructure, controlStructure *)
(** L2NormCost: whether a vector of weights is accepted for a range of variables, and a reference. *)
Variable weights_ok : option (nat * nat) -> list R -> bool.
Variable reference_ok : object -> bool.
Variable torques_ok : list R -> bool.                         (* StaticTorquesCost::setWeights *)

Definition xrange (n : string) := getIndexRange SL n.
Definition urange (n : string) := getIndexRange CL n.
Definition lsize := length (leftPts st).
Definition rsize := length (rightPts st).
Definition momentum (first : nat) : option (nat * nat) := part (xrange "Momentum") first 3.

(** An L2NormCost on a part of the state with weights and reference. *)
Definition l2_state (c : cost) (w : R) (tr : option interval) (r : option (nat * nat)) (ws : list R) (ref : object) : list (action term) :=
  [Check (weights_ok r ws); Check (reference_ok ref); Add (mkTerm c w tr [OnState r; Weights ws; Reference ref])].
Definition l2_control (c : cost) (w : R) (r : option (nat * nat)) (ws : list R) (ref : object) : list (action term) :=
  [Check (weights_ok r ws); Check (reference_ok ref); Add (mkTerm c w None [OnControl r; Weights ws; Reference ref])].

(** Solver.cpp:387-404 *)
Definition com_cost := when (comActive st)
  (l2_state KCoM (comWeight st) (Some (comRange st)) (xrange "CoMPosition") (comWeightVector st) (comReference st)).
(** 407-423; the reference is asserted (CoMVelocityCost.cpp:92-96) *)
Definition com_velocity_cost := when (comVelActive st)
  [Check (weights_ok (momentum 0) (comVelWeightVector st)); Assert (present (comVelReference st));
   Add (mkTerm KCoMVelocity (comVelWeight st) (Some (comVelRange st))
          [OnState (momentum 0); Weights (comVelWeightVector st); Reference (comVelReference st)])].
(** 425-441; FrameOrientationCost.cpp:168-180 *)
Definition frame_cost := when (frameActive st)
  [Check (present (rotationReference st)); Assert (present (frameTimeWeight st));
   Add (mkTerm KFrameOrientation (frameWeight st) None [Frame (frameName st); Reference (rotationReference st); TimeWeight (frameTimeWeight st)])].
(** 443-460 *)
Definition force_mean_cost := when (meanForceActive st)
  (for_points lsize (fun i => [Add (mkTerm (KForceMean Left i) (meanForceWeight st) None [Index i])]) ++
   for_points rsize (fun i => [Add (mkTerm (KForceMean Right i) (meanForceWeight st) None [Index i])])).
(** 462-481; the weight is the one of the force mean cost *)
Definition force_ratio_cost := when (ratioActive st)
  (for_points lsize (fun i => [Assert (i <? length (leftRatios st))%nat;
     Add (mkTerm (KForceRatio Left i) (meanForceWeight st) None [Index i; Number (nth i (leftRatios st) 0)])]) ++
   for_points rsize (fun i => [Assert (i <? length (rightRatios st))%nat;
     Add (mkTerm (KForceRatio Right i) (meanForceWeight st) None [Index i; Number (nth i (rightRatios st) 0)])])).
(** 483-503 *)
Definition joints_cost := when (jointsActive st)
  (l2_state KJointsRegularization (jointsWeight st) None (xrange "JointsPosition") (jointsWeightVector st) (jointsReference st)).
(** 505-524 *)
Definition joints_velocity_cost := when (jointsVelActive st)
  (l2_control KJointsVelocity (jointsVelWeight st) (urange "JointsVelocity") (jointsVelWeightVector st) (jointsVelReference st)).
(** 526-541 *)
Definition torques_cost := when (torquesActive st)
  [Check (torques_ok (torquesWeightVector st));
   Add (mkTerm KStaticTorques (torquesWeight st) None
          [Frame (leftFrame st); Frame (rightFrame st); Points (leftPts st); Points (rightPts st); Weights (torquesWeightVector st)])].
(** 543-591 *)
Definition force_derivative_cost := when (forceDerActive st)
  (for_points lsize (fun i => l2_control (KForceDerivative Left i) (forceDerWeight st)
      (urange ("LeftForceControlPoint" ++ decimal i)) (forceDerWeightVector st) (forceDerReference st)) ++
   for_points rsize (fun i => l2_control (KForceDerivative Right i) (forceDerWeight st)
      (urange ("RightForceControlPoint" ++ decimal i)) (forceDerWeightVector st) (forceDerReference st))).
(** 593-641 *)
Definition acceleration_cost := when (accActive st)
  (for_points lsize (fun i => l2_control (KPointAcceleration Left i) (accWeight st)
      (urange ("LeftVelocityControlPoint" ++ decimal i)) (accWeightVector st) (accReference st)) ++
   for_points rsize (fun i => l2_control (KPointAcceleration Right i) (accWeight st)
      (urange ("RightVelocityControlPoint" ++ decimal i)) (accWeightVector st) (accReference st))).
(** 643-662 *)
Definition swing_cost := when (swingActive st)
  (for_points lsize (fun i => [Add (mkTerm (KSwing Left i) (swingWeight st) None [Index i; Number (swingHeight st); Weights (swingWeightVector st)])]) ++
   for_points rsize (fun i => [Add (mkTerm (KSwing Right i) (swingWeight st) None [Index i; Number (swingHeight st); Weights (swingWeightVector st)])])).
(** 664-686 *)
Definition phantom_cost := when (phantomActive st)
  (for_points lsize (fun i => [Add (mkTerm (KPhantomForces Left i) (phantomWeight st) None [Index i; Number (secantScaling st)])]) ++
   for_points rsize (fun i => [Add (mkTerm (KPhantomForces Right i) (phantomWeight st) None [Index i; Number (secantScaling st)])])).
(** A setter that refuses the null pointer and keeps the default of the constructor, when its answer is not looked at. *)
Definition kept (o : object) : datum := if present o then Reference o else DefaultReference.
(** 688-696.  The result of setDesiredPositionTrajectory is ignored (MeanPointPositionCost.cpp:39,81-88); the weight is
    asserted (90-95). *)
Definition mean_point_cost := when (meanPointActive st)
  [Assert (present (meanPointTimeWeight st));
   Add (mkTerm KMeanPointPosition (meanPointWeight st) (Some (meanPointRange st)) [kept (meanPointReference st); TimeWeight (meanPointTimeWeight st)])].
(** 698-714; FootYawCost.cpp:127-132 *)
Definition left_yaw_cost := when (leftYawActive st)
  [Assert (present (leftYawReference st)); Add (mkTerm (KFootYaw Left) (leftYawWeight st) None [Points (leftPts st); Reference (leftYawReference st)])].
Definition right_yaw_cost := when (rightYawActive st)
  [Assert (present (rightYawReference st)); Add (mkTerm (KFootYaw Right) (rightYawWeight st) None [Points (rightPts st); Reference (rightYawReference st)])].
(** 716-723 *)
Definition distance_cost := when (distanceActive st) [Add (mkTerm KFeetDistance (distanceWeight st) None [])].
(** 725-735 *)
Definition postural_cost := when (posturalActive st)
  [Add (mkTerm KVelocityForPostural (posturalWeight st) None [Weights (jointsVelWeightVector st); Weights (jointsWeightVector st); Reference (jointsReference st)])].
(** 738-760 *)
Definition complementarity_cost := when (complCostActive st)
  (for_points lsize (fun i => [Add (mkTerm (KComplementarity Left i) (complCostWeight st) None [Index i])]) ++
   for_points rsize (fun i => [Add (mkTerm (KComplementarity Right i) (complCostWeight st) None [Index i])])).
(** 762-783 *)
Definition base_cost := when (baseActive st)
  (l2_state KBasePosition (baseWeight st) (Some (baseRange st)) (xrange "BasePosition") (baseWeightVector st) (baseReference st)).
(** 785-803 *)
Definition quaternion_cost := when (quatActive st)
  [Check (reference_ok (quatReference st)); Add (mkTerm KBaseQuaternion (quatWeight st) None [OnState (xrange "BaseQuaternion"); Reference (quatReference st)])].
(** 805-815; the result of setDesiredRotationTrajectory is ignored (FrameAngularVelocityCost.cpp:168-174) *)
Definition frame_velocity_cost := when (frameVelActive st)
  [Add (mkTerm KFrameAngularVelocity (frameVelWeight st) None [Frame (frameName st); Number (pidGain st); kept (rotationReference st)])].
(** 817-840 *)
Definition base_velocity_cost := when (baseVelActive st)
  (l2_control KBaseLinearVelocity (baseVelWeight st) (urange "BaseLinearVelocity") (baseVelWeightVector st) (baseVelReference st)).
(** 842-860 *)
Definition quaternion_velocity_cost := when (quatVelActive st)
  [Check (reference_ok (quatVelReference st));
   Add (mkTerm KBaseQuaternionVelocity (quatVelWeight st) None [OnControl (urange "BaseQuaternionDerivative"); Reference (quatVelReference st)])].
(** 862-875 *)
Definition angular_momentum_cost := when (angMomActive st)
  [Add (mkTerm KAngularMomentum (angMomWeight st) None [OnState (momentum 3)])].

(** setCosts, Solver.cpp:384-877 *)
Definition setCosts : list (action term) :=
  com_cost ++ com_velocity_cost ++ frame_cost ++ force_mean_cost ++ force_ratio_cost ++ joints_cost ++ joints_velocity_cost ++
  torques_cost ++ force_derivative_cost ++ acceleration_cost ++ swing_cost ++ phantom_cost ++ mean_point_cost ++ left_yaw_cost ++
  right_yaw_cost ++ distance_cost ++ postural_cost ++ complementarity_cost ++ base_cost ++ quaternion_cost ++ frame_velocity_cost ++
  base_velocity_cost ++ quaternion_velocity_cost ++ angular_momentum_cost.
End Costs.

Section Constraints.
Variable st : problem_settings.

(** FeetLateralDistanceConstraint.cpp:111-115,143-151: the constructor ends with a minimum distance of zero, a negative
    one is refused; the refusal is not looked at (Solver.cpp:934-936). *)
Definition kept_distance : R := if Rlt_dec (minFeetDistance st) 0 then 0 else minFeetDistance st.
(** ContactFrictionConstraint.cpp:66-73 *)
Definition friction_ok : bool := if Rle_dec (friction st) 0 then false else true.
Definition vx (v : R * R * R) := fst (fst v).
Definition vy (v : R * R * R) := snd (fst v).
Definition vz (v : R * R * R) := snd v.
Definition is_compl (k : complementarity_type) : bool :=
  match compl st, k with
  | HyperbolicSecantInequality, HyperbolicSecantInequality | Dynamical, Dynamical | Classical, Classical
  | HyperbolicSecantInDynamics, HyperbolicSecantInDynamics => true
  | _, _ => false
  end.
Definition is_planar (k : planar_type) : bool :=
  match planar st, k with
  | HyperbolicTangentInDynamics, HyperbolicTangentInDynamics | HyperbolicTangentInequality, HyperbolicTangentInequality
  | PlanarClassical, PlanarClassical => true
  | _, _ => false
  end.

(** Solver.cpp:911-953 *)
Definition whole_body_constraints : list (action restriction) :=
  [ Add (mkRestriction LCentroidalMomentum [Number (momentumTolerance st)]);
    Add (mkRestriction LCoMPosition [Number (comTolerance st)]);
    Add (mkRestriction LFeetLateralDistance [Index (lateralIndex st); Frame (distanceRefFrame st); Frame (distanceOtherFrame st); Number kept_distance]);
    Add (mkRestriction LQuaternionNorm [Number (quaternionTolerance st)]);
    Add (mkRestriction LFeetRelativeHeight [Number (maxRelativeHeight st)]) ].
(** Solver.cpp:955-1038: one left contact point *)
Definition left_point (i : nat) : list (action restriction) :=
  when (is_planar HyperbolicTangentInequality)
    [Add (mkRestriction (LPlanarVelocity Left i) [Index i; Number (tangentScaling st); Number (vx (velocityMaxDerivative st)); Number (vy (velocityMaxDerivative st))])] ++
  when (is_planar PlanarClassical)
    [Add (mkRestriction (LClassicalPlanar Left i) [Index i; Number (classicalPlanarTolerance st)])] ++
  when (is_compl Dynamical)
    [Add (mkRestriction (LDynamicalComplementarity Left i) [Index i; Number (complDissipation st); Number (dynamicUpperBound st)])] ++
  when (is_compl HyperbolicSecantInequality)
    [Add (mkRestriction (LForceControl Left i) [Index i; Number (secantScaling st); Number (vz (forceMaxDerivative st)); Number (dissipationRatio st)])] ++
  when (is_compl Classical)
    [Add (mkRestriction (LClassicalComplementarity Left i) [Index i; Number (classicalTolerance st)])] ++
  [ Check friction_ok; Add (mkRestriction (LFriction Left i) [Index i; Number (friction st)]);
    Add (mkRestriction (LPointPosition Left i) [Index i; Frame (leftFrame st); Point (nth i (leftPts st) (0, 0, 0)); Number (pointTolerance st)]) ].
(** Solver.cpp:1040-1123: one right contact point *)
Definition right_point (i : nat) : list (action restriction) :=
  when (is_planar HyperbolicTangentInequality)
    [Add (mkRestriction (LPlanarVelocity Right i) [Index i; Number (tangentScaling st); Number (vx (velocityMaxDerivative st)); Number (vy (velocityMaxDerivative st))])] ++
  when (is_planar PlanarClassical)
    [Add (mkRestriction (LClassicalPlanar Right i) [Index i; Number (classicalPlanarTolerance st)])] ++
  when (is_compl Dynamical)
    [Add (mkRestriction (LDynamicalComplementarity Right i) [Index i; Number (complDissipation st); Number (dynamicUpperBound st)])] ++
  when (is_compl Classical)
    [Add (mkRestriction (LClassicalComplementarity Right i) [Index i; Number (classicalTolerance st)])] ++
  when (is_compl HyperbolicSecantInequality)
    [Add (mkRestriction (LForceControl Right i) [Index i; Number (secantScaling st); Number (vz (forceMaxDerivative st)); Number (dissipationRatio st)])] ++
  [ Check friction_ok; Add (mkRestriction (LFriction Right i) [Index i; Number (friction st)]);
    Add (mkRestriction (LPointPosition Right i) [Index i; Frame (rightFrame st); Point (nth i (rightPts st) (0, 0, 0)); Number (pointTolerance st)]) ].
(** setConstraints, Solver.cpp:879-1126 *)
Definition setConstraints : list (action restriction) :=
  whole_body_constraints ++ for_points (length (leftPts st)) left_point ++ for_points (length (rightPts st)) right_point.

(** The dynamics, Solver.cpp:1445-1463: [None]: the smoothing function is disabled (constant one). *)
Record dynamics := mkDynamics { d_planar : option R; d_normal : option R; d_dissipation : R }.
Definition configured_dynamics : dynamics :=
  mkDynamics (if is_planar HyperbolicTangentInDynamics then Some (tangentScaling st) else None)
             (if is_compl HyperbolicSecantInDynamics then Some (secantScaling st) else None)
             (dissipationRatio st).
End Constraints.
