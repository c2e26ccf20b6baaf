(** Independent vocabulary for C46, C47: zero states and controls, means, norms. *)
From Coq Require Import Reals List Arith Bool Lra.
From Verif Require Import SpecState SpecGeometry.
Import ListNotations.
Local Open Scope R_scope.

Definition zero4 : V4 := (0, 0, 0, 0).
Definition zero6 : V6 := (zero3, zero3).
(** Every value is zero; the transform is the identity. *)
Definition state_zero {Rot} (idR : Rot) (s : state Rot) : Prop :=
  (forall p, In p (leftContactPointsState s) \/ In p (rightContactPointsState s) -> pointForce p = zero3 /\ pointPosition p = zero3) /\
  momentumInCoM s = zero6 /\ comPosition s = zero3 /\ basePosition s = zero3 /\ baseRotation s = idR /\
  (forall x, In x (jointsConfiguration s) -> x = 0) /\ stateTime s = 0.
Definition control_zero (c : control) : Prop :=
  (forall p, In p (leftContactPointsControl c) \/ In p (rightContactPointsControl c) -> pointForceControl p = zero3 /\ pointVelocityControl p = zero3) /\
  baseLinearVelocity c = zero3 /\ baseQuaternionDerivative c = zero4 /\
  (forall x, In x (jointsVelocity c) -> x = 0) /\ controlTime c = 0.

(** [m] is the mean of the points: its distance-weighted balance, n m = sum. *)
Definition is_mean (m : V3) (ps : list V3) : Prop := scale3 (INR (length ps)) m = sum3 ps.
Definition norm3 (v : V3) : R := sqrt (dot3 v v).
(** [x] is the smallest norm of the forces. *)
Definition smallest_norm (x : R) (fs : list V3) : Prop :=
  (exists f, In f fs /\ x = norm3 f) /\ (forall f, In f fs -> x <= norm3 f).
