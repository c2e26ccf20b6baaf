(** Model of StaticTorquesCost (src/private/StaticTorquesCost.cpp, include/DynamicalPlannerPrivate/Costs/StaticTorquesCost.h). *)
From Coq Require Import Reals List Arith Bool.
From Verif Require Import Spec SpecQuaternion SpecRigid SpecBase SpecFeet SpecMom SpecTorque CostsModel.
Import ListNotations.
Local Open Scope R_scope.

(** The members that survive a call: weights, stateGradientBuffer, controlGradientBuffer, fullJacobianBuffer. *)
Record torque_cost := { tc_weights : nat * vec; tc_gradient : vec; tc_control : vec; tc_jacobian : mat }.
(** :211-255. *)
Definition tc_ctor (dofs : nat) : torque_cost :=
  {| tc_weights := (dofs, fun _ => 1); tc_gradient := fun _ => 0; tc_control := fun _ => 0; tc_jacobian := fun _ _ => 0 |}.
(** :260-268 setWeights: a vector of n entries. *)
Definition tc_set_weights (s : torque_cost) (n : nat) (w : vec) : torque_cost * bool :=
  if (n =? fst (tc_weights s))%nat
  then ({| tc_weights := (n, w); tc_gradient := tc_gradient s; tc_control := tc_control s; tc_jacobian := tc_jacobian s |}, true)
  else (s, false).

Section Cost.
Variable r : robot.
Variable place : vec -> nat -> pose.
Variable base dofs : nat.
Variable pl : places.                               (* baseQuaternionRange, jointsPositionRange *)
Variable left right : foot.                         (* leftVariables, rightVariables *)
Variable torques : vec -> (nat -> v6) -> vec.       (* getStaticForces: state (base quaternion, joints), contact wrenches -> jointTorques() *)
Variable derivative : vec -> (nat -> v6) -> mat.    (* getStaticForcesJointsDerivative: StaticModel.static_derivative *)
Variable fjac : vec -> nat -> nat -> v6.            (* getFrameFreeFloatingJacobian BODY_FIXED: joints, frame -> column 6 + i *)
Variable joints_of_foot : foot -> vec -> mat.       (* :114-126: what is subtracted in the joints block *)
Variable quaternion_block : vec -> mat.             (* :318-320 *)
Variable quaternion_of_foot : foot -> vec -> mat.   (* :98-112: what is subtracted in the quaternion block *)

(** getWorldTransform(robotState, footFrame).getRotation().inverse(), :195 and :83. *)
Definition from_world (x : vec) (f : nat) : m3 :=
  mtr (rot (pmul (base_pose (part x (at_base_quaternion pl) 4) v30) (relative r place (part x (at_joint_positions pl) dofs) base f))).
(** :192-203 computeFootLinkWrench. *)
Definition foot_wrench (x : vec) (f : foot) : v6 :=
  let mixed_to_body := Pose (from_world x (foot_frame f)) v30 in
  let total := fold_left (fun t c => v6add t (m6v (AdjW (Pose m3I (snd c))) (m6v (AdjW mixed_to_body) (V6 (part3 x (fst c)) v30)))) (foot_points f) v60 in
  m6v (AdjW (frame_offset r (foot_frame f))) total.
(** contactWrenches: resize in the constructor zeroes it; the left foot is assigned before the right one (:62-63). *)
Definition contact_wrenches (x : vec) (l : nat) : v6 :=
  let W := fun l => if (l =? frame_link r (foot_frame left))%nat then foot_wrench x left else v60 in
  if (l =? frame_link r (foot_frame right))%nat then foot_wrench x right else W l.
(** :270-282 computeStaticTorques. *)
Definition compute_torques (x : vec) : vec := torques x (contact_wrenches x).
(** :284-294 costEvaluation. *)
Definition tc_eval (s : torque_cost) (x : vec) : R :=
  let t := compute_torques x in 1 / 2 * sumn dofs (fun j => t j * snd (tc_weights s) j * t j).
(** :80-96, the blocks of the forces of a foot. *)
Definition force_block (x : vec) (f : foot) (c : v3) : mat :=
  let R := from_world x (foot_frame f) in
  let onto := fun i k => if (i <? 3)%nat then ment R i k else ment (mm (SpecRigid.skew c) R) (i - 3)%nat k in
  fun j k => - sumn 6 (fun i => v6ent (fjac (part x (at_joint_positions pl) dofs) (foot_frame f) j) i * onto i k).
(** :73-127 computeFootRelatedJacobians. *)
Definition foot_jacobians (x : vec) (f : foot) (J : mat) : mat :=
  let J := fold_left (fun J c => set_block J 0 (fst c) dofs 3 (force_block x f (snd c))) (foot_points f) J in
  let J1 := J in
  let J := set_block J 0 (at_base_quaternion pl) dofs 4 (fun j k => J1 j (at_base_quaternion pl + k)%nat - quaternion_of_foot f x j k) in
  let J2 := J in
  set_block J 0 (at_joint_positions pl) dofs dofs (fun j k => J2 j (at_joint_positions pl + k)%nat - joints_of_foot f x j k).
(** :296-329 computeStaticTorquesJacobian. *)
Definition torques_jacobian (s : torque_cost) (x : vec) : mat :=
  let J := set_block (tc_jacobian s) 0 (at_joint_positions pl) dofs dofs (derivative x (contact_wrenches x)) in
  let J := set_block J 0 (at_base_quaternion pl) dofs 4 (quaternion_block x) in
  foot_jacobians x right (foot_jacobians x left J).
(** :331-367 costFirstPartialDerivativeWRTState. *)
Definition tc_sgrad (s : torque_cost) (x : vec) : torque_cost * vec :=
  let t := compute_torques x in
  let J := torques_jacobian s x in
  let g o := fun k => sumn dofs (fun j => t j * snd (tc_weights s) j * J j (o + k)%nat) in
  let G := set_seg (tc_gradient s) (at_joint_positions pl) dofs (g (at_joint_positions pl)) in
  let G := set_seg G (at_base_quaternion pl) 4 (g (at_base_quaternion pl)) in
  let G := fold_left (fun G c => set_seg G (fst c) 3 (g (fst c))) (foot_points left) G in
  let G := fold_left (fun G c => set_seg G (fst c) 3 (g (fst c))) (foot_points right) G in
  ({| tc_weights := tc_weights s; tc_gradient := G; tc_control := tc_control s; tc_jacobian := J |}, G).
(** :369-373 costFirstPartialDerivativeWRTControl. *)
Definition tc_cgrad (s : torque_cost) (x : vec) : torque_cost * vec := (s, tc_control s).
End Cost.
