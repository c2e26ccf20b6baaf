(** Model of the joints block of StaticTorquesCost::computeFootRelatedJacobians, and the rotation of the forces. *)
From Coq Require Import Reals List Arith Lia Lra Bool FunctionalExtensionality.
From Coquelicot Require Import Coquelicot.
From Verif Require Import Spec PartialLib SpecQuaternion Quaternion QuaternionProofs.
From Verif Require Import QuatCurve SpecRigid Rigid RigidCalc.
From Verif Require Import SpecBase BaseProofs SpecFeet SpecMom SpecTorque TorqueModel TorqueProofs.
Import ListNotations.
Local Open Scope R_scope.

Section Foot.
Variable r : robot.
Variable place : vec -> nat -> pose.
Variable base dofs : nat.
Variable pl : places.
Variable fjac : vec -> nat -> nat -> v6.
Variable quat : m3 -> vec.                          (* Rotation::asQuaternion *)
(** StaticTorquesCost.cpp:119-124: the last four factors applied to a column, from right to left. *)
Definition turned_force (R : m3) (F w : v3) : v3 :=
  let v := mulv 4 (RotatedVectorQuaternionJacobian (vent F) (quat R))
             (mulv 4 InverseQuaternionDerivative (mulv 3 (QuaternionLeftTrivializedDerivative (quat (mtr R))) (vent w))) in
  V3 (v 0%nat) (v 1%nat) (v 2%nat).
(** StaticTorquesCost.cpp:114-125: the entry that is subtracted for a foot. *)
Definition foot_joints (f : foot) (x : vec) : mat := fun j z =>
  let R := from_world r place base dofs pl x (foot_frame f) in
  let s := part x (at_joint_positions pl) dofs in
  v6dot (fjac s (foot_frame f) j)
    (vsum (map (fun c => let v := turned_force R (part3 x (fst c)) (ang (fjac s (foot_frame f) z)) in V6 v (mv (SpecRigid.skew (snd c)) v)) (foot_points f))).
End Foot.

Section Quaternion.
Variable r : robot.
Variable place : vec -> nat -> pose.
Variable base dofs : nat.
Variable pl : places.
Variable gravity : v3.                              (* SharedKinDynComputations::gravity *)
Variable fjac : vec -> nat -> nat -> v6.
Variable mass : vec -> nat -> v3.                   (* getFreeFloatingMassMatrix, BODY_FIXED: row j of bottomLeftCorner(n, 3) *)
(** StaticTorquesCost.cpp:108-109 and :319-320 (quatDerMap of a vector, column k, the products from right to left). *)
Definition turned_by_quaternion (q : vec) (F : v3) (k : nat) : v3 :=
  let v := mulv 4 (RotatedVectorQuaternionJacobian (vent F) (InverseQuaternion (NormalizedQuaternion q)))
             (mulv 4 InverseQuaternionDerivative (fun i => NormalizedQuaternionDerivative q i k)) in
  V3 (v 0%nat) (v 1%nat) (v 2%nat).
(** StaticTorquesCost.cpp:318-320. *)
Definition weight_block (x : vec) : mat := fun j k =>
  - vdot (mass (part x (at_joint_positions pl) dofs) j) (turned_by_quaternion (part x (at_base_quaternion pl) 4) gravity k).
(** StaticTorquesCost.cpp:98-112: the entry that is subtracted for a foot; f_T_b is f_T_a * getBaseTransform. *)
Definition foot_quaternion (f : foot) (x : vec) : mat := fun j k =>
  let R := mm (from_world r place base dofs pl x (foot_frame f)) (rot (base_pose (part x (at_base_quaternion pl) 4) v30)) in
  v6dot (fjac (part x (at_joint_positions pl) dofs) (foot_frame f) j)
    (vsum (map (fun c => let v := turned_by_quaternion (part x (at_base_quaternion pl) 4) (part3 x (fst c)) k in
       V6 (mv R v) (mv (mm (SpecRigid.skew (snd c)) R) v)) (foot_points f))).
End Quaternion.

Lemma spin_back p w i : qnorm2 p = 1 -> (i < 4)%nat ->
  mulv 4 InverseQuaternionDerivative (mulv 3 (QuaternionLeftTrivializedDerivative p) w) i =
  - mulv 3 (QuaternionLeftTrivializedDerivative (InverseQuaternion p)) (qrot p w) i.
Proof.
  intros H Hi. unfold qnorm2 in H. cbn [sumn] in H.
  assert (H0 : p 0%nat * p 0%nat = 1 - p 1%nat * p 1%nat - p 2%nat * p 2%nat - p 3%nat * p 3%nat) by lra.
  unfold mulv, qrot, QuaternionLeftTrivializedDerivative, InverseQuaternionDerivative, InverseQuaternion, cross, qvec. cbn [sumn].
  destruct i as [|[|[|[|i]]]]; [| | | |lia]; cbn; unfold Quaternion.identity, Quaternion.skew, Quaternion.tail3; cbn; ring [H0].
Qed.
