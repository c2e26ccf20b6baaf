(** Independent vocabulary for C55 and C56: the costs and the constraints a user can ask for in the settings, and what
    each of them should be made of.  Nothing here depends on the model of the solver. *)
From Coq Require Import String Reals List Arith Bool.
From Verif Require Import SpecState SpecSettings SpecLayout.
Import ListNotations.
Local Open Scope R_scope.

Inductive side := Left | Right.
(** References, time varying weights and other shared objects are named by numbers; [None] is the null pointer. *)
Definition object := option nat.
Definition interval := (R * R)%type.

(** The costs. *)
Inductive cost :=
| KCoM | KCoMVelocity | KFrameOrientation
| KForceMean (s : side) (i : nat) | KForceRatio (s : side) (i : nat)
| KJointsRegularization | KJointsVelocity | KStaticTorques
| KForceDerivative (s : side) (i : nat) | KPointAcceleration (s : side) (i : nat)
| KSwing (s : side) (i : nat) | KPhantomForces (s : side) (i : nat)
| KMeanPointPosition | KFootYaw (s : side) | KFeetDistance | KVelocityForPostural
| KComplementarity (s : side) (i : nat)
| KBasePosition | KBaseQuaternion | KFrameAngularVelocity | KBaseLinearVelocity | KBaseQuaternionVelocity | KAngularMomentum.
(** The constraints. *)
Inductive limit :=
| LCentroidalMomentum | LCoMPosition | LFeetLateralDistance | LQuaternionNorm | LFeetRelativeHeight
| LPlanarVelocity (s : side) (i : nat) | LClassicalPlanar (s : side) (i : nat) | LNormalVelocity (s : side) (i : nat)
| LDynamicalComplementarity (s : side) (i : nat) | LForceControl (s : side) (i : nat) | LClassicalComplementarity (s : side) (i : nat)
| LFriction (s : side) (i : nat) | LPointPosition (s : side) (i : nat).

(** What a cost or a constraint is configured with. *)
Inductive datum :=
| OnState (r : option (nat * nat))                     (* the entries of the state it looks at: first index, number *)
| OnControl (r : option (nat * nat))
| Weights (w : list R) | Reference (o : object) | DefaultReference | TimeWeight (o : object)
| Frame (name : string) | Number (x : R) | Index (n : nat) | Point (p : V3) | Points (p : list V3).

(** The part of the settings this is about (include/DynamicalPlanner/Settings.h:37-250). *)
Record problem_settings := {
  leftPts : list V3; rightPts : list V3; leftFrame : string; rightFrame : string;
  compl : complementarity_type; planar : planar_type;
  forceMaxDerivative : R * R * R; dissipationRatio : R; secantScaling : R;
  complDissipation : R; dynamicUpperBound : R; classicalTolerance : R;
  friction : R; velocityMaxDerivative : R * R * R; tangentScaling : R; classicalPlanarTolerance : R;
  lateralIndex : nat; minFeetDistance : R; distanceRefFrame : string; distanceOtherFrame : string;
  maxRelativeHeight : R; comTolerance : R; momentumTolerance : R; quaternionTolerance : R; pointTolerance : R;
  comActive : bool; comWeight : R; comRange : interval; comWeightVector : list R; comReference : object;
  comVelActive : bool; comVelWeight : R; comVelRange : interval; comVelWeightVector : list R; comVelReference : object;
  frameActive : bool; frameWeight : R; frameName : string; rotationReference : object; frameTimeWeight : object;
  meanForceActive : bool; meanForceWeight : R;
  ratioActive : bool; ratioWeight : R; leftRatios : list R; rightRatios : list R;
  jointsActive : bool; jointsWeight : R; jointsReference : object; jointsWeightVector : list R;
  jointsVelActive : bool; jointsVelWeight : R; jointsVelReference : object; jointsVelWeightVector : list R;
  torquesActive : bool; torquesWeight : R; torquesWeightVector : list R;
  forceDerActive : bool; forceDerWeight : R; forceDerReference : object; forceDerWeightVector : list R;
  accActive : bool; accWeight : R; accReference : object; accWeightVector : list R;
  swingActive : bool; swingWeight : R; swingHeight : R; swingWeightVector : list R;
  phantomActive : bool; phantomWeight : R;
  meanPointActive : bool; meanPointWeight : R; meanPointTimeWeight : object; meanPointRange : interval; meanPointReference : object;
  leftYawActive : bool; leftYawWeight : R; leftYawReference : object;
  rightYawActive : bool; rightYawWeight : R; rightYawReference : object;
  distanceActive : bool; distanceWeight : R;
  posturalActive : bool; posturalWeight : R;
  complCostActive : bool; complCostWeight : R;
  baseActive : bool; baseWeight : R; baseRange : interval; baseWeightVector : list R; baseReference : object;
  quatActive : bool; quatWeight : R; quatReference : object;
  frameVelActive : bool; frameVelWeight : R; pidGain : R;
  baseVelActive : bool; baseVelWeight : R; baseVelWeightVector : list R; baseVelReference : object;
  quatVelActive : bool; quatVelWeight : R; quatVelReference : object;
  angMomActive : bool; angMomWeight : R
}.

Definition pts (st : problem_settings) (s : side) : list V3 := match s with Left => leftPts st | Right => rightPts st end.
Definition point_name (s : side) (what : string) (i : nat) : string :=
  (match s with Left => "Left" | Right => "Right" end ++ what ++ decimal i)%string.
Definition ratios (st : problem_settings) (s : side) : list R := match s with Left => leftRatios st | Right => rightRatios st end.

(** The settings ask for this cost. *)
Definition asked (st : problem_settings) (c : cost) : Prop :=
  match c with
  | KCoM => comActive st = true | KCoMVelocity => comVelActive st = true | KFrameOrientation => frameActive st = true
  | KForceMean s i => meanForceActive st = true /\ (i < length (pts st s))%nat
  | KForceRatio s i => ratioActive st = true /\ (i < length (pts st s))%nat
  | KJointsRegularization => jointsActive st = true | KJointsVelocity => jointsVelActive st = true
  | KStaticTorques => torquesActive st = true
  | KForceDerivative s i => forceDerActive st = true /\ (i < length (pts st s))%nat
  | KPointAcceleration s i => accActive st = true /\ (i < length (pts st s))%nat
  | KSwing s i => swingActive st = true /\ (i < length (pts st s))%nat
  | KPhantomForces s i => phantomActive st = true /\ (i < length (pts st s))%nat
  | KMeanPointPosition => meanPointActive st = true
  | KFootYaw Left => leftYawActive st = true | KFootYaw Right => rightYawActive st = true
  | KFeetDistance => distanceActive st = true | KVelocityForPostural => posturalActive st = true
  | KComplementarity s i => complCostActive st = true /\ (i < length (pts st s))%nat
  | KBasePosition => baseActive st = true | KBaseQuaternion => quatActive st = true
  | KFrameAngularVelocity => frameVelActive st = true | KBaseLinearVelocity => baseVelActive st = true
  | KBaseQuaternionVelocity => quatVelActive st = true | KAngularMomentum => angMomActive st = true
  end.
(** Its overall weight. *)
Definition own_weight (st : problem_settings) (c : cost) : R :=
  match c with
  | KCoM => comWeight st | KCoMVelocity => comVelWeight st | KFrameOrientation => frameWeight st
  | KForceMean _ _ => meanForceWeight st | KForceRatio _ _ => ratioWeight st
  | KJointsRegularization => jointsWeight st | KJointsVelocity => jointsVelWeight st | KStaticTorques => torquesWeight st
  | KForceDerivative _ _ => forceDerWeight st | KPointAcceleration _ _ => accWeight st
  | KSwing _ _ => swingWeight st | KPhantomForces _ _ => phantomWeight st
  | KMeanPointPosition => meanPointWeight st
  | KFootYaw Left => leftYawWeight st | KFootYaw Right => rightYawWeight st
  | KFeetDistance => distanceWeight st | KVelocityForPostural => posturalWeight st | KComplementarity _ _ => complCostWeight st
  | KBasePosition => baseWeight st | KBaseQuaternion => quatWeight st | KFrameAngularVelocity => frameVelWeight st
  | KBaseLinearVelocity => baseVelWeight st | KBaseQuaternionVelocity => quatVelWeight st | KAngularMomentum => angMomWeight st
  end.
(** When it is active; [None]: always. *)
Definition own_range (st : problem_settings) (c : cost) : option interval :=
  match c with
  | KCoM => Some (comRange st) | KCoMVelocity => Some (comVelRange st)
  | KMeanPointPosition => Some (meanPointRange st) | KBasePosition => Some (baseRange st)
  | _ => None
  end.
(** What it measures, with which weights and which reference.  [x] and [u] tell where a variable is in the state and in
    the control (first index, number of entries). *)
Definition part (v : option (nat * nat)) (first size : nat) : option (nat * nat) :=
  match v with Some (o, _) => Some ((o + first)%nat, size) | None => None end.
Definition own_data (st : problem_settings) (x u : string -> option (nat * nat)) (c : cost) : list datum :=
  match c with
  | KCoM => [OnState (x "CoMPosition"); Weights (comWeightVector st); Reference (comReference st)]
  | KCoMVelocity => [OnState (part (x "Momentum") 0 3); Weights (comVelWeightVector st); Reference (comVelReference st)]
  | KFrameOrientation => [Frame (frameName st); Reference (rotationReference st); TimeWeight (frameTimeWeight st)]
  | KForceMean s i => [Index i] | KForceRatio s i => [Index i; Number (nth i (ratios st s) 0)]
  | KJointsRegularization => [OnState (x "JointsPosition"); Weights (jointsWeightVector st); Reference (jointsReference st)]
  | KJointsVelocity => [OnControl (u "JointsVelocity"); Weights (jointsVelWeightVector st); Reference (jointsVelReference st)]
  | KStaticTorques => [Frame (leftFrame st); Frame (rightFrame st); Points (leftPts st); Points (rightPts st); Weights (torquesWeightVector st)]
  | KForceDerivative s i => [OnControl (u (point_name s "ForceControlPoint" i)); Weights (forceDerWeightVector st); Reference (forceDerReference st)]
  | KPointAcceleration s i => [OnControl (u (point_name s "VelocityControlPoint" i)); Weights (accWeightVector st); Reference (accReference st)]
  | KSwing s i => [Index i; Number (swingHeight st); Weights (swingWeightVector st)]
  | KPhantomForces s i => [Index i; Number (secantScaling st)]
  | KMeanPointPosition => [Reference (meanPointReference st); TimeWeight (meanPointTimeWeight st)]
  | KFootYaw Left => [Points (leftPts st); Reference (leftYawReference st)]
  | KFootYaw Right => [Points (rightPts st); Reference (rightYawReference st)]
  | KFeetDistance => []
  | KVelocityForPostural => [Weights (jointsVelWeightVector st); Weights (jointsWeightVector st); Reference (jointsReference st)]
  | KComplementarity s i => [Index i]
  | KBasePosition => [OnState (x "BasePosition"); Weights (baseWeightVector st); Reference (baseReference st)]
  | KBaseQuaternion => [OnState (x "BaseQuaternion"); Reference (quatReference st)]
  | KFrameAngularVelocity => [Frame (frameName st); Number (pidGain st); Reference (rotationReference st)]
  | KBaseLinearVelocity => [OnControl (u "BaseLinearVelocity"); Weights (baseVelWeightVector st); Reference (baseVelReference st)]
  | KBaseQuaternionVelocity => [OnControl (u "BaseQuaternionDerivative"); Reference (quatVelReference st)]
  | KAngularMomentum => [OnState (part (x "Momentum") 3 3)]
  end%string.

(** The settings ask for this constraint. *)
Definition imposed (st : problem_settings) (c : limit) : Prop :=
  match c with
  | LCentroidalMomentum | LCoMPosition | LFeetLateralDistance | LQuaternionNorm | LFeetRelativeHeight => True
  | LPlanarVelocity s i => planar st = HyperbolicTangentInequality /\ (i < length (pts st s))%nat
  | LClassicalPlanar s i => planar st = PlanarClassical /\ (i < length (pts st s))%nat
  | LNormalVelocity _ _ => False
  | LDynamicalComplementarity s i => compl st = Dynamical /\ (i < length (pts st s))%nat
  | LForceControl s i => compl st = HyperbolicSecantInequality /\ (i < length (pts st s))%nat
  | LClassicalComplementarity s i => compl st = Classical /\ (i < length (pts st s))%nat
  | LFriction s i | LPointPosition s i => (i < length (pts st s))%nat
  end.
(** With these parameters. *)
Definition own_parameters (st : problem_settings) (c : limit) : list datum :=
  match c with
  | LCentroidalMomentum => [Number (momentumTolerance st)]
  | LCoMPosition => [Number (comTolerance st)]
  | LFeetLateralDistance => [Index (lateralIndex st); Frame (distanceRefFrame st); Frame (distanceOtherFrame st); Number (minFeetDistance st)]
  | LQuaternionNorm => [Number (quaternionTolerance st)]
  | LFeetRelativeHeight => [Number (maxRelativeHeight st)]
  | LPlanarVelocity s i => [Index i; Number (tangentScaling st); Number (fst (fst (velocityMaxDerivative st))); Number (snd (fst (velocityMaxDerivative st)))]
  | LClassicalPlanar s i => [Index i; Number (classicalPlanarTolerance st)]
  | LNormalVelocity s i => []
  | LDynamicalComplementarity s i => [Index i; Number (complDissipation st); Number (dynamicUpperBound st)]
  | LForceControl s i => [Index i; Number (secantScaling st); Number (snd (forceMaxDerivative st)); Number (dissipationRatio st)]
  | LClassicalComplementarity s i => [Index i; Number (classicalTolerance st)]
  | LFriction s i => [Index i; Number (friction st)]
  | LPointPosition s i => [Index i; Frame (match s with Left => leftFrame st | Right => rightFrame st end);
                           Point (nth i (pts st s) (0, 0, 0)); Number (pointTolerance st)]
  end.

(** What a cost needs in order to be added: weights and references the cost accepts, pointers that are not null, one
    desired ratio per contact point. *)
Definition usable (st : problem_settings) (x u : string -> option (nat * nat)) (weights_fit : option (nat * nat) -> list R -> bool)
    (reference_fits : object -> bool) (torques_fit : list R -> bool) (c : cost) : Prop :=
  match c with
  | KCoM => weights_fit (x "CoMPosition") (comWeightVector st) = true /\ reference_fits (comReference st) = true
  | KCoMVelocity => weights_fit (part (x "Momentum") 0 3) (comVelWeightVector st) = true /\ comVelReference st <> None
  | KFrameOrientation => rotationReference st <> None /\ frameTimeWeight st <> None
  | KForceRatio s i => (i < length (ratios st s))%nat
  | KJointsRegularization => weights_fit (x "JointsPosition") (jointsWeightVector st) = true /\ reference_fits (jointsReference st) = true
  | KJointsVelocity => weights_fit (u "JointsVelocity") (jointsVelWeightVector st) = true /\ reference_fits (jointsVelReference st) = true
  | KStaticTorques => torques_fit (torquesWeightVector st) = true
  | KForceDerivative s i => weights_fit (u (point_name s "ForceControlPoint" i)) (forceDerWeightVector st) = true /\ reference_fits (forceDerReference st) = true
  | KPointAcceleration s i => weights_fit (u (point_name s "VelocityControlPoint" i)) (accWeightVector st) = true /\ reference_fits (accReference st) = true
  | KMeanPointPosition => meanPointTimeWeight st <> None
  | KFootYaw Left => leftYawReference st <> None | KFootYaw Right => rightYawReference st <> None
  | KBasePosition => weights_fit (x "BasePosition") (baseWeightVector st) = true /\ reference_fits (baseReference st) = true
  | KBaseQuaternion => reference_fits (quatReference st) = true
  | KBaseLinearVelocity => weights_fit (u "BaseLinearVelocity") (baseVelWeightVector st) = true /\ reference_fits (baseVelReference st) = true
  | KBaseQuaternionVelocity => reference_fits (quatVelReference st) = true
  | _ => True
  end%string.
