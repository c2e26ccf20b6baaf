(** Independent vocabulary for the settings (C31-C33, C51): double precision
    values that may be infinite or not a number, the settings structure, and the
    documented ranges. *)
From Coq Require Import Reals String List Arith Bool Lra Lia.
From Verif Require Import SpecState.
Import ListNotations.
Local Open Scope R_scope.

Inductive dbl := Fin (r : R) | PInf | NInf | NaN.
Definition is_number (d : dbl) : Prop := d <> NaN.
(** Order on the extended reals (false as soon as one side is not a number). *)
Definition dlt (a b : dbl) : Prop :=
  match a, b with
  | Fin x, Fin y => x < y
  | Fin _, PInf => True | NInf, Fin _ => True | NInf, PInf => True
  | _, _ => False
  end.
Definition dle (a b : dbl) : Prop :=
  match a, b with
  | Fin x, Fin y => x <= y
  | Fin _, PInf => True | NInf, Fin _ => True | NInf, PInf => True
  | PInf, PInf => True | NInf, NInf => True
  | _, _ => False
  end.
Definition dtwice (a : dbl) : dbl := match a with Fin x => Fin (2 * x) | d => d end.

Inductive complementarity_type := HyperbolicSecantInequality | Dynamical | Classical | HyperbolicSecantInDynamics.
Inductive planar_type := HyperbolicTangentInDynamics | HyperbolicTangentInequality | PlanarClassical.

(** What the model of the robot answers. *)
Record robot_model := mkModel {
  isLinkNameUsed : string -> bool; isFrameNameUsed : string -> bool; nrOfDOFs : nat;
  (** joints in index order, each with the limits of its degrees of freedom, if any *)
  joints : list (list (option (dbl * dbl)))
}.

(** include/DynamicalPlanner/Settings.h:37-250.  Pointers are kept as "is set",
    weight vectors as their size, time ranges as "is valid".  Fields that neither
    setFromStruct nor Defaults relate to a check (gravity, updateTolerance,
    overall weights, forceMaximumDerivative, ...) are left out. *)
Record settings := mkSettings {
  minimumDt : dbl; maximumDt : dbl; controlPeriod : dbl; horizon : dbl; activeControlPercentage : dbl;
  robotModel : robot_model; floatingBaseName : string;
  leftPoints : list V3; rightPoints : list V3; leftFrameName : string; rightFrameName : string;
  complementarity : complementarity_type; complementarityDissipation : dbl; dynamicComplementarityUpperBound : dbl;
  classicalComplementarityTolerance : dbl; frictionCoefficient : dbl;
  planarComplementarity : planar_type; velocityMaximumDerivative : dbl * dbl * dbl;
  planarVelocityHyperbolicTangentScaling : dbl; classicalPlanarComplementarityTolerance : dbl;
  indexOfLateralDirection : nat; minimumFeetDistance : dbl;
  referenceFrameNameForFeetDistance : string; otherFrameNameForFeetDistance : string;
  feetMaximumRelativeHeight : dbl; comPositionConstraintTolerance : dbl; centroidalMomentumConstraintTolerance : dbl;
  quaternionModulusConstraintTolerance : dbl; pointPositionConstraintTolerance : dbl; minimumCoMHeight : dbl;
  jointsLimits : list (dbl * dbl); jointsVelocityLimits : list (dbl * dbl);
  constrainTargetCoMPosition : bool; targetCoMPositionTolerance : bool; constrainTargetCoMPositionRange_valid : bool;
  maximumAngularMomentum : dbl;
  comCostActive : bool; comCostActiveRange_valid : bool; comWeights : nat; desiredCoMTrajectory : bool;
  comVelocityCostActive : bool; comVelocityWeights : nat; desiredCoMVelocityTrajectory : bool;
  frameCostActive : bool; frameForOrientationCost : string; desiredRotationTrajectory : bool; frameCostTimeVaryingWeight : bool;
  forceRatioCostActive : bool; desiredLeftRatios : list dbl; desiredRightRatios : list dbl;
  jointsRegularizationCostActive : bool; desiredJointsTrajectory : bool; jointsRegularizationWeights : nat;
  jointsVelocityCostActive : bool; desiredJointsVelocityTrajectory : bool; jointsVelocityCostWeights : nat;
  staticTorquesCostActive : bool; staticTorquesCostWeights : nat;
  forceDerivativeCostActive : bool; desiredForceDerivativeTrajectory : bool; forceDerivativeWeights : nat;
  pointAccelerationCostActive : bool; desiredPointAccelerationTrajectory : bool; pointAccelerationWeights : nat;
  swingCostActive : bool; desiredSwingHeight : dbl;
  meanPointPositionCostActive : bool; meanPointPositionCostTimeVaryingWeight : bool;
  meanPointPositionCostActiveRange_valid : bool; desiredMeanPointPosition : bool;
  leftFootYawCostActive : bool; desiredLeftFootYaw : bool; rightFootYawCostActive : bool; desiredRightFootYaw : bool;
  jointsVelocityForPosturalCostActive : bool;
  basePositionCostActive : bool; basePositionCostActiveRange_valid : bool; basePositionCostWeights : nat; desiredBasePositionTrajectory : bool;
  baseQuaternionCostActive : bool; desiredBaseQuaternionTrajectory : bool;
  frameAngularVelocityCostActive : bool;
  baseLinearVelocityCostActive : bool; baseLinearVelocityCostWeights : nat; desiredBaseLinearVelocityTrajectory : bool;
  baseQuaternionVelocityCostActive : bool; desiredBaseQuaternionVelocityTrajectory : bool
}.

Definition nonneg (d : dbl) : Prop := dle (Fin 0) d.
Definition ordered (p : dbl * dbl) : Prop := dle (fst p) (snd p).
Definition unit_interval (d : dbl) : Prop := dle (Fin 0) d /\ dle d (Fin 1).

(** The documented ranges (the error messages of the validation). *)
Record documented (s : settings) : Prop := {
  doc_minimumDt : nonneg (minimumDt s);
  doc_maximumDt : nonneg (maximumDt s);
  doc_dt : dlt (dtwice (minimumDt s)) (maximumDt s);
  doc_controlPeriod : nonneg (controlPeriod s);
  doc_horizon : nonneg (horizon s);
  doc_active : unit_interval (activeControlPercentage s);
  doc_base : isLinkNameUsed (robotModel s) (floatingBaseName s) = true;
  doc_points : length (leftPoints s) = length (rightPoints s);
  doc_left : isFrameNameUsed (robotModel s) (leftFrameName s) = true;
  doc_right : isFrameNameUsed (robotModel s) (rightFrameName s) = true;
  doc_dissipation : nonneg (complementarityDissipation s);
  doc_friction : nonneg (frictionCoefficient s);
  doc_lateral : (indexOfLateralDirection s <= 2)%nat;
  doc_distance : nonneg (minimumFeetDistance s);
  doc_ref : isFrameNameUsed (robotModel s) (referenceFrameNameForFeetDistance s) = true;
  doc_other : isFrameNameUsed (robotModel s) (otherFrameNameForFeetDistance s) = true;
  doc_comtol : nonneg (comPositionConstraintTolerance s);
  doc_momtol : nonneg (centroidalMomentumConstraintTolerance s);
  doc_quattol : nonneg (quaternionModulusConstraintTolerance s);
  doc_pointtol : nonneg (pointPositionConstraintTolerance s);
  doc_comheight : nonneg (minimumCoMHeight s);
  doc_limits_size : length (jointsLimits s) = nrOfDOFs (robotModel s);
  doc_vlimits_size : length (jointsVelocityLimits s) = nrOfDOFs (robotModel s);
  doc_limits : Forall ordered (jointsLimits s);
  doc_vlimits : Forall ordered (jointsVelocityLimits s);
  doc_angmom : nonneg (maximumAngularMomentum s);
  doc_height : nonneg (feetMaximumRelativeHeight s);
  doc_target : constrainTargetCoMPosition s = true ->
    constrainTargetCoMPositionRange_valid s = true /\ targetCoMPositionTolerance s = true;
  doc_com : comCostActive s = true ->
    comWeights s = 3%nat /\ comCostActiveRange_valid s = true /\ desiredCoMTrajectory s = true;
  doc_comvel : comVelocityCostActive s = true -> comVelocityWeights s = 3%nat /\ desiredCoMVelocityTrajectory s = true;
  doc_frame : frameCostActive s = true -> isFrameNameUsed (robotModel s) (frameForOrientationCost s) = true /\
    desiredRotationTrajectory s = true /\ frameCostTimeVaryingWeight s = true;
  doc_jreg : jointsRegularizationCostActive s = true ->
    desiredJointsTrajectory s = true /\ jointsRegularizationWeights s = nrOfDOFs (robotModel s);
  doc_torques : staticTorquesCostActive s = true -> staticTorquesCostWeights s = nrOfDOFs (robotModel s);
  doc_fder_weights : forceDerivativeCostActive s = true -> forceDerivativeWeights s = 3%nat;
  doc_pacc : pointAccelerationCostActive s = true ->
    desiredPointAccelerationTrajectory s = true /\ pointAccelerationWeights s = 3%nat;
  doc_swing : swingCostActive s = true -> nonneg (desiredSwingHeight s);
  doc_mean : meanPointPositionCostActive s = true -> meanPointPositionCostActiveRange_valid s = true /\
    desiredMeanPointPosition s = true /\ meanPointPositionCostTimeVaryingWeight s = true;
  doc_bpos : basePositionCostActive s = true -> basePositionCostWeights s = 3%nat /\
    basePositionCostActiveRange_valid s = true /\ desiredBasePositionTrajectory s = true;
  doc_bquat : baseQuaternionCostActive s = true -> desiredBaseQuaternionTrajectory s = true;
  doc_blin : baseLinearVelocityCostActive s = true ->
    desiredBaseLinearVelocityTrajectory s = true /\ baseLinearVelocityCostWeights s = 3%nat;
  doc_bqv : baseQuaternionVelocityCostActive s = true -> desiredBaseQuaternionVelocityTrajectory s = true;
  doc_ratio : forceRatioCostActive s = true ->
    length (leftPoints s) = length (desiredLeftRatios s) /\ Forall unit_interval (desiredLeftRatios s) /\
    length (rightPoints s) = length (desiredRightRatios s) /\ Forall unit_interval (desiredRightRatios s);
  doc_dynamical : complementarity s = Dynamical -> nonneg (dynamicComplementarityUpperBound s);
  doc_classical : complementarity s = Classical -> nonneg (classicalComplementarityTolerance s);
  doc_planar : planarComplementarity s = PlanarClassical -> nonneg (classicalPlanarComplementarityTolerance s);
  doc_velmax : let '(a, b, c) := velocityMaximumDerivative s in nonneg a /\ nonneg b /\ nonneg c;
  doc_tanh : planarComplementarity s <> PlanarClassical -> nonneg (planarVelocityHyperbolicTangentScaling s)
}.

(** Every number the validation looks at is a number. *)
Definition all_numbers (s : settings) : Prop :=
  Forall is_number [minimumDt s; maximumDt s; controlPeriod s; horizon s; activeControlPercentage s;
    complementarityDissipation s; dynamicComplementarityUpperBound s; classicalComplementarityTolerance s;
    frictionCoefficient s; planarVelocityHyperbolicTangentScaling s; classicalPlanarComplementarityTolerance s;
    minimumFeetDistance s; feetMaximumRelativeHeight s; comPositionConstraintTolerance s;
    centroidalMomentumConstraintTolerance s; quaternionModulusConstraintTolerance s; pointPositionConstraintTolerance s;
    minimumCoMHeight s; maximumAngularMomentum s; desiredSwingHeight s;
    fst (fst (velocityMaximumDerivative s)); snd (fst (velocityMaximumDerivative s)); snd (velocityMaximumDerivative s)] /\
  Forall (fun p => is_number (fst p) /\ is_number (snd p)) (jointsLimits s) /\
  Forall (fun p => is_number (fst p) /\ is_number (snd p)) (jointsVelocityLimits s) /\
  Forall is_number (desiredLeftRatios s) /\ Forall is_number (desiredRightRatios s).
