(** Independent vocabulary for states, controls and vectors of fixed size
    (C04, C05, C46, C47, C49).  A rotation is kept abstract. *)
From Coq Require Import Reals String List Arith Bool Lia.
Import ListNotations.

Definition V3 := (R * R * R)%type.
Definition V4 := (R * R * R * R)%type.
Definition V6 := (V3 * V3)%type.

Definition l3 (v : V3) : list R := let '(a,b,c) := v in [a;b;c].
Definition l4 (v : V4) : list R := let '(a,b,c,d) := v in [a;b;c;d].
Definition l6 (v : V6) : list R := (l3 (fst v) ++ l3 (snd v))%list.

(** include/DynamicalPlanner/State.h: public data members of the state. *)
Record point_state := mkPointState { pointForce : V3; pointPosition : V3 }.
Record state (Rot : Type) := mkState {
  leftContactPointsState : list point_state;
  rightContactPointsState : list point_state;
  momentumInCoM : V6;
  comPosition : V3;
  basePosition : V3;
  baseRotation : Rot;
  jointsConfiguration : list R;
  stateTime : R
}.
Arguments mkState {Rot}. Arguments leftContactPointsState {Rot}. Arguments rightContactPointsState {Rot}.
Arguments momentumInCoM {Rot}. Arguments comPosition {Rot}. Arguments basePosition {Rot}.
Arguments baseRotation {Rot}. Arguments jointsConfiguration {Rot}. Arguments stateTime {Rot}.

(** include/DynamicalPlanner/Control.h. *)
Record point_control := mkPointControl { pointForceControl : V3; pointVelocityControl : V3 }.
Record control := mkControl {
  leftContactPointsControl : list point_control;
  rightContactPointsControl : list point_control;
  baseLinearVelocity : V3;
  baseQuaternionDerivative : V4;
  jointsVelocity : list R;
  controlTime : R
}.

(** The state has [dofs] joints and [n] points on each foot. *)
Definition state_sized {Rot} (s : state Rot) (dofs n : nat) : Prop :=
  length (leftContactPointsState s) = n /\ length (rightContactPointsState s) = n /\
  length (jointsConfiguration s) = dofs.
Definition control_sized (c : control) (dofs n : nat) : Prop :=
  length (leftContactPointsControl c) = n /\ length (rightContactPointsControl c) = n /\
  length (jointsVelocity c) = dofs.

(** The optimisation vectors, written out: this is the documented order of the
    variables. *)
Definition state_vector {Rot} (quat : Rot -> V4) (s : state Rot) : list R :=
  (flat_map (fun p => l3 (pointForce p) ++ l3 (pointPosition p)) (leftContactPointsState s)
  ++ flat_map (fun p => l3 (pointForce p) ++ l3 (pointPosition p)) (rightContactPointsState s)
  ++ l6 (momentumInCoM s) ++ l3 (comPosition s) ++ l3 (basePosition s)
  ++ l4 (quat (baseRotation s)) ++ jointsConfiguration s)%list.

Definition control_vector (c : control) : list R :=
  (flat_map (fun p => l3 (pointVelocityControl p) ++ l3 (pointForceControl p)) (leftContactPointsControl c)
  ++ flat_map (fun p => l3 (pointVelocityControl p) ++ l3 (pointForceControl p)) (rightContactPointsControl c)
  ++ l3 (baseLinearVelocity c) ++ l4 (baseQuaternionDerivative c) ++ jointsVelocity c)%list.
