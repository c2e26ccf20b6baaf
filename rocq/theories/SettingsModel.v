(** Model of src/Settings.cpp. *)
From Coq Require Import Reals String List Arith Bool Lra Lia.
From Verif Require Import SpecState SpecSettings.
Import ListNotations.
Local Open Scope R_scope.

(** IEEE comparison operators < and <= on double. *)
Definition dltb (a b : dbl) : bool :=
  match a, b with
  | Fin x, Fin y => if Rlt_dec x y then true else false
  | Fin _, PInf | NInf, Fin _ | NInf, PInf => true
  | _, _ => false
  end.
Definition dleb (a b : dbl) : bool :=
  match a, b with
  | Fin x, Fin y => if Rle_dec x y then true else false
  | Fin _, PInf | NInf, Fin _ | NInf, PInf | PInf, PInf | NInf, NInf => true
  | _, _ => false
  end.
Definition d0 := Fin 0.
Definition d1 := Fin 1.

(** Eigen's minCoeff of a vector of three entries: the running value is replaced
    when the new one is strictly smaller. *)
Definition dmin (a b : dbl) : dbl := if dltb b a then b else a.
Definition minCoeff (v : dbl * dbl * dbl) : dbl := let '(a, b, c) := v in dmin (dmin a b) c.

(** Settings.cpp:79-85: [None] when an element past the end of the velocity limits
    is read. *)
Fixpoint limitChecks (jl jvl : list (dbl * dbl)) : option (list bool) :=
  match jl with
  | [] => Some []
  | p :: jl' =>
    match jvl with
    | [] => None
    | q :: jvl' =>
      match limitChecks jl' jvl' with
      | None => None
      | Some r => Some (dltb (snd p) (fst p) :: dltb (snd q) (fst q) :: r)
      end
    end
  end.

Definition neqb (a b : nat) : bool := negb (Nat.eqb a b).
Definition when (b : bool) (l : list bool) : list bool := if b then l else [].
Definition ratioErrors (l : list dbl) : list bool := map (fun r => dltb r d0 || dltb d1 r) l.
Definition ceqb (a b : complementarity_type) : bool :=
  match a, b with
  | HyperbolicSecantInequality, HyperbolicSecantInequality | Dynamical, Dynamical
  | Classical, Classical | HyperbolicSecantInDynamics, HyperbolicSecantInDynamics => true
  | _, _ => false
  end.
Definition peqb (a b : planar_type) : bool :=
  match a, b with
  | HyperbolicTangentInDynamics, HyperbolicTangentInDynamics
  | HyperbolicTangentInequality, HyperbolicTangentInequality | PlanarClassical, PlanarClassical => true
  | _, _ => false
  end.

(** Settings.cpp:44-78: the conditions passed to checkError, in order. *)
Definition checks1 (s : settings) : list bool :=
  let m := robotModel s in
  [ dltb (minimumDt s) d0; dltb (maximumDt s) d0; dleb (maximumDt s) (dtwice (minimumDt s));
    dltb (controlPeriod s) d0; dltb (horizon s) d0;
    dltb d1 (activeControlPercentage s) || dltb (activeControlPercentage s) d0;
    negb (isLinkNameUsed m (floatingBaseName s));
    neqb (length (leftPoints s)) (length (rightPoints s));
    negb (isFrameNameUsed m (leftFrameName s)); negb (isFrameNameUsed m (rightFrameName s));
    dltb (complementarityDissipation s) d0; dltb (frictionCoefficient s) d0;
    Nat.ltb 2 (indexOfLateralDirection s); dltb (minimumFeetDistance s) d0;
    negb (isFrameNameUsed m (referenceFrameNameForFeetDistance s));
    negb (isFrameNameUsed m (otherFrameNameForFeetDistance s));
    dltb (comPositionConstraintTolerance s) d0; dltb (centroidalMomentumConstraintTolerance s) d0;
    dltb (quaternionModulusConstraintTolerance s) d0; dltb (pointPositionConstraintTolerance s) d0;
    dltb (minimumCoMHeight s) d0;
    neqb (length (jointsLimits s)) (nrOfDOFs m); neqb (length (jointsVelocityLimits s)) (nrOfDOFs m) ].

(** Settings.cpp:87-207. *)
Definition checks2 (s : settings) : list bool :=
  let m := robotModel s in
  [ dltb (maximumAngularMomentum s) d0; dltb (feetMaximumRelativeHeight s) d0 ]
  ++ when (constrainTargetCoMPosition s)
       [ negb (constrainTargetCoMPositionRange_valid s); negb (targetCoMPositionTolerance s) ]
  ++ when (comCostActive s)
       [ neqb (comWeights s) 3; negb (comCostActiveRange_valid s); negb (desiredCoMTrajectory s) ]
  ++ when (comVelocityCostActive s) [ neqb (comVelocityWeights s) 3; negb (desiredCoMVelocityTrajectory s) ]
  ++ when (frameCostActive s)
       [ negb (isFrameNameUsed m (frameForOrientationCost s)); negb (desiredRotationTrajectory s); negb (frameCostTimeVaryingWeight s) ]
  ++ when (jointsRegularizationCostActive s)
       [ negb (desiredJointsTrajectory s); neqb (jointsRegularizationWeights s) (nrOfDOFs m) ]
  ++ when (staticTorquesCostActive s) [ neqb (staticTorquesCostWeights s) (nrOfDOFs m) ]
  ++ when (forceDerivativeCostActive s) [ negb (desiredRotationTrajectory s); neqb (forceDerivativeWeights s) 3 ]
  ++ when (pointAccelerationCostActive s)
       [ negb (desiredPointAccelerationTrajectory s); neqb (pointAccelerationWeights s) 3 ]
  ++ when (swingCostActive s) [ dltb (desiredSwingHeight s) d0 ]
  ++ when (meanPointPositionCostActive s)
       [ negb (meanPointPositionCostActiveRange_valid s); negb (desiredMeanPointPosition s);
         negb (meanPointPositionCostTimeVaryingWeight s) ]
  ++ when (basePositionCostActive s)
       [ neqb (basePositionCostWeights s) 3; negb (basePositionCostActiveRange_valid s); negb (desiredBasePositionTrajectory s) ]
  ++ when (baseQuaternionCostActive s) [ negb (desiredBaseQuaternionTrajectory s) ]
  ++ when (baseLinearVelocityCostActive s)
       [ negb (desiredBaseLinearVelocityTrajectory s); neqb (baseLinearVelocityCostWeights s) 3 ]
  ++ when (baseQuaternionVelocityCostActive s) [ negb (desiredBaseQuaternionVelocityTrajectory s) ]
  ++ when (forceRatioCostActive s)
       ([ neqb (length (leftPoints s)) (length (desiredLeftRatios s)) ] ++ ratioErrors (desiredLeftRatios s)
        ++ [ neqb (length (rightPoints s)) (length (desiredRightRatios s)) ] ++ ratioErrors (desiredRightRatios s))
  ++ when (ceqb (complementarity s) Dynamical)
       [ dltb (complementarityDissipation s) d0; dltb (dynamicComplementarityUpperBound s) d0 ]
  ++ when (ceqb (complementarity s) Classical) [ dltb (classicalComplementarityTolerance s) d0 ]
  ++ when (peqb (planarComplementarity s) PlanarClassical) [ dltb (classicalPlanarComplementarityTolerance s) d0 ]
  ++ [ dltb (minCoeff (velocityMaximumDerivative s)) d0 ]
  ++ when (peqb (planarComplementarity s) HyperbolicTangentInDynamics || peqb (planarComplementarity s) HyperbolicTangentInequality)
       [ dltb (planarVelocityHyperbolicTangentScaling s) d0 ].

(** Settings.cpp:36-217: the stored settings are an arbitrary structure until the
    first acceptance.  The error counter is an int; at most (number of checks)
    increments are made.  [None]: out of bounds read. *)
Record Settings := mkStore { m_settings : settings; m_isValid : bool }.
Definition countErrors (l : list bool) : nat := length (filter (fun b => b) l).
Definition setFromStruct (st : Settings) (s : settings) : option (Settings * bool) :=
  match limitChecks (jointsLimits s) (jointsVelocityLimits s) with
  | None => None
  | Some lim =>
    let errors := (countErrors (checks1 s) + countErrors lim + countErrors (checks2 s))%nat in
    if Nat.eqb errors 0 then Some (mkStore s true, true) else Some (st, false)
  end.
(** Settings.cpp:27-34: constructors ([garbage]: default initialised structure). *)
Definition newSettings (garbage : settings) : Settings := mkStore garbage false.
Definition newSettingsFrom (garbage : settings) (flag : bool) (s : settings) : option Settings :=
  match setFromStruct (mkStore garbage flag) s with
  | None => None
  | Some (st, b) => Some (mkStore (m_settings st) b)
  end.

(** Settings.cpp:229-509, Settings::Defaults: the fields of [settings] only.  The
    loop over the joints (lines 306-319) runs over jointIdx < getNrOfDOFs(), not over
    getNrOfJoints(): [None] when a joint past the last one is asked for.  A dof
    without limits gets (-1E19, 1E19). *)
Definition big : R := 10 ^ 19.
Definition limitOf (o : option (dbl * dbl)) : dbl * dbl :=
  match o with Some p => p | None => (Fin (- big), Fin big) end.
Definition defaultJointsLimits (m : robot_model) : option (list (dbl * dbl)) :=
  if Nat.leb (nrOfDOFs m) (length (joints m))
  then Some (flat_map (map limitOf) (firstn (nrOfDOFs m) (joints m))) else None.
Definition pt (x y z : R) : V3 := (x, y, z).
Definition Defaults (m : robot_model) : option settings :=
  match defaultJointsLimits m with
  | None => None
  | Some jl =>
    let n := nrOfDOFs m in
    Some {|
      minimumDt := Fin (1/100); maximumDt := Fin (1/10); controlPeriod := Fin (1/100); horizon := Fin 1;
      activeControlPercentage := Fin 1; robotModel := m; floatingBaseName := "root_link"%string;
      leftPoints := [pt (125/1000) (-4/100) 0; pt (125/1000) (4/100) 0; pt (-63/1000) (4/100) 0; pt (-63/1000) (-4/100) 0];
      rightPoints := [pt (125/1000) (4/100) 0; pt (125/1000) (-4/100) 0; pt (-63/1000) (-4/100) 0; pt (-63/1000) (4/100) 0];
      leftFrameName := "l_sole"%string; rightFrameName := "r_sole"%string;
      complementarity := HyperbolicSecantInequality; complementarityDissipation := Fin 10;
      dynamicComplementarityUpperBound := Fin (1/100); classicalComplementarityTolerance := Fin (1/10);
      frictionCoefficient := Fin (3/10); planarComplementarity := HyperbolicTangentInDynamics;
      velocityMaximumDerivative := (Fin 10, Fin 10, Fin 10); planarVelocityHyperbolicTangentScaling := Fin 50;
      classicalPlanarComplementarityTolerance := Fin (1/10); indexOfLateralDirection := 1; minimumFeetDistance := Fin (1/10);
      referenceFrameNameForFeetDistance := "r_sole"%string; otherFrameNameForFeetDistance := "l_sole"%string;
      feetMaximumRelativeHeight := Fin (4/100); comPositionConstraintTolerance := Fin (1/1000);
      centroidalMomentumConstraintTolerance := Fin (1/100); quaternionModulusConstraintTolerance := Fin (1/10000);
      pointPositionConstraintTolerance := Fin (1/1000); minimumCoMHeight := Fin (2/10);
      jointsLimits := jl; jointsVelocityLimits := repeat (Fin (- big), Fin big) n;
      constrainTargetCoMPosition := true; targetCoMPositionTolerance := true; constrainTargetCoMPositionRange_valid := true;
      maximumAngularMomentum := Fin 10;
      comCostActive := true; comCostActiveRange_valid := true; comWeights := 3; desiredCoMTrajectory := true;
      comVelocityCostActive := true; comVelocityWeights := 3; desiredCoMVelocityTrajectory := true;
      frameCostActive := true; frameForOrientationCost := "neck_2"%string; desiredRotationTrajectory := true; frameCostTimeVaryingWeight := true;
      forceRatioCostActive := true; desiredLeftRatios := repeat (Fin (1/4)) 4; desiredRightRatios := repeat (Fin (1/4)) 4;
      jointsRegularizationCostActive := true; desiredJointsTrajectory := true; jointsRegularizationWeights := n;
      jointsVelocityCostActive := true; desiredJointsVelocityTrajectory := true; jointsVelocityCostWeights := n;
      staticTorquesCostActive := true; staticTorquesCostWeights := n;
      forceDerivativeCostActive := true; desiredForceDerivativeTrajectory := true; forceDerivativeWeights := 3;
      pointAccelerationCostActive := true; desiredPointAccelerationTrajectory := true; pointAccelerationWeights := 3;
      swingCostActive := true; desiredSwingHeight := Fin (3/100);
      meanPointPositionCostActive := true; meanPointPositionCostTimeVaryingWeight := true;
      meanPointPositionCostActiveRange_valid := true; desiredMeanPointPosition := true;
      leftFootYawCostActive := true; desiredLeftFootYaw := true; rightFootYawCostActive := true; desiredRightFootYaw := true;
      jointsVelocityForPosturalCostActive := true;
      basePositionCostActive := true; basePositionCostActiveRange_valid := true; basePositionCostWeights := 3; desiredBasePositionTrajectory := true;
      baseQuaternionCostActive := true; desiredBaseQuaternionTrajectory := true;
      frameAngularVelocityCostActive := true;
      baseLinearVelocityCostActive := true; baseLinearVelocityCostWeights := 3; desiredBaseLinearVelocityTrajectory := true;
      baseQuaternionVelocityCostActive := true; desiredBaseQuaternionVelocityTrajectory := true |}
  end.
