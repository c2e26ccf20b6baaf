(** Model of CentroidalMomentumConstraint.cpp.

    Simplifications: what the levi expressions of the second derivatives evaluate to is a parameter (second), given by
    CmmExprModel.v; the loop that waits for their evaluation is modelled in PollModel.v. *)
From Coq Require Import Reals List Arith Bool.
From Coquelicot Require Import Coquelicot.
From Verif Require Import Spec SpecQuaternion SpecRigid SpecBase SpecFeet SpecCmm ConstraintsModel CostsModel Quaternion KinModel SymModel BaseModel FeetModel MomModel.
Import ListNotations.
Local Open Scope R_scope.

Record cmm := { cm_cfg : layout; cm_lower : R; cm_upper : R; cm_shared : R -> rstate; cm_sbuffer : mat; cm_cbuffer : mat }.
(** CentroidalMomentumConstraint.cpp:253-299: buffers and bounds are zero. *)
Definition cmm_ctor (c : layout) (shared : R -> rstate) : cmm :=
  {| cm_cfg := c; cm_lower := 0; cm_upper := 0; cm_shared := shared; cm_sbuffer := fun _ _ => 0; cm_cbuffer := fun _ _ => 0 |}.
(** CentroidalMomentumConstraint.cpp:301-308 setEqualityTolerance. *)
Definition cmm_set_tolerance (s : cmm) (tol : R) : cmm :=
  {| cm_cfg := cm_cfg s; cm_lower := - tol / 2; cm_upper := tol / 2; cm_shared := cm_shared s; cm_sbuffer := cm_sbuffer s; cm_cbuffer := cm_cbuffer s |}.
Definition cmm_set_shared (s : cmm) (g : R -> rstate) : cmm :=
  {| cm_cfg := cm_cfg s; cm_lower := cm_lower s; cm_upper := cm_upper s; cm_shared := g; cm_sbuffer := cm_sbuffer s; cm_cbuffer := cm_cbuffer s |}.
Definition cmm_set_buffers (s : cmm) (a b : mat) : cmm :=
  {| cm_cfg := cm_cfg s; cm_lower := cm_lower s; cm_upper := cm_upper s; cm_shared := cm_shared s; cm_sbuffer := a; cm_cbuffer := b |}.

Section Cmm.
Variable dofs : nat.
Variable mom : rstate -> v6.                        (* getLinearAngularMomentum, BODY_FIXED_REPRESENTATION *)
Variable matrix : rstate -> mat.                    (* getLinearAngularMomentumJacobian, BODY_FIXED_REPRESENTATION *)
Variable dmom : rstate -> option mat.               (* getLinearAngularMomentumJointsDerivative: MomModel.mom_derivative *)
Variable cpos : vec -> vec -> vec -> v3.            (* getCenterOfMassPosition *)
Variable cjac : vec -> vec -> vec -> mat.           (* getCenterOfMassJacobian, MIXED_REPRESENTATION *)
Variable second : nat -> nat -> rstate -> vec -> mat.   (* the expressions of the Hessians: two variables, state, multipliers *)

(** CentroidalMomentumConstraint.cpp:99-124 updateRobotState. *)
Definition cmm_state (c : layout) (x u : vec) : rstate :=
  RState (part x (at_position c) 3) (part x (at_quaternion c) 4) (part x (at_joints c) dofs)
         (part u (at_linear c) 3) (part u (at_quaternion_rate c) 4) (part u (at_joint_rates c) dofs).
(** at the time t only: timedSharedKinDyn->get(time). *)
Definition cmm_update (s : cmm) (t : R) (x u : vec) : cmm :=
  cmm_set_shared s (fun t' => if Req_EM_T t' t then cmm_state (cm_cfg s) x u else cm_shared s t').
(** SharedKinDynComputations::getBaseTransform. *)
Definition base_transform (st : rstate) : pose := base_pose (st_q st) (V3 (st_p st 0%nat) (st_p st 1%nat) (st_p st 2%nat)).
(** CentroidalMomentumConstraint.cpp:130-133: comPosition, comTransform. *)
Definition com_position (st : rstate) : v3 := cpos (st_q st) (st_p st) (st_s st).
Definition com_transform (st : rstate) : pose := Pose m3I (vopp (com_position st)).
(** G_T_B. *)
Definition centroidal_base (st : rstate) : pose := pmul (com_transform st) (base_transform st).
(** CentroidalMomentumConstraint.cpp:313-339 evaluateConstraint.  updateDoneOnceConstraint stays false: the value is always computed. *)
Definition cmm_eval (s : cmm) (t : R) (x u : vec) : cmm * vec :=
  let s' := cmm_update s t x u in
  let st := cm_shared s' t in
  let expected := m6v (AdjW (com_transform st)) (m6v (AdjW (base_transform st)) (mom st)) in
  let buffer i := v6ent expected i - x (at_momentum (cm_cfg s) + i)%nat in
  (s', fun i => buffer (3 + i)%nat).
(** CentroidalMomentumConstraint.cpp:341-412 constraintJacobianWRTState. *)
Definition cmm_sjac (s : cmm) (t : R) (x u : vec) (J : mat) : cmm * mat :=
  let s' := cmm_update s t x u in
  let c := cm_cfg s in
  let st := cm_shared s' t in
  let G := centroidal_base st in
  let hB := mom st in
  let hG := m6v (AdjW G) hB in
  let D := match dmom st with Some D => D | None => fun _ _ => 0 end in
  let C := cjac (st_q st) (st_p st) (st_s st) in
  let q := at_quaternion c in
  let j := at_joints c in
  let B := set_block (cm_sbuffer s) 0 j 6 dofs (fun i k => sumn 6 (fun a => m6ent (AdjW G) i a * D a k)) in
  let B := set_block B 3 j 3 dofs (fun i k => B (3 + i)%nat (j + k)%nat + sumn 3 (fun a => ment (SpecRigid.skew (lin hG)) i a * C a (6 + k)%nat)) in
  let B := set_block B 0 (at_momentum c) 6 6 (scaled_identity (-1)) in
  let N := NormalizedQuaternionDerivative (st_q st) in
  let nq := NormalizedQuaternion (st_q st) in
  let B := set_block B 0 q 3 4 (fun i k => sumn 4 (fun e => RotatedVectorQuaternionJacobian (vent (lin hB)) nq i e * N e k)) in
  let cB := papply (pinv (base_transform st)) (com_position st) in
  let cross := vcross (vopp cB) (lin hB) in
  let B := set_block B 3 q 3 4 (fun i k => sumn 4 (fun e => (RotatedVectorQuaternionJacobian (vent (ang hB)) nq i e + RotatedVectorQuaternionJacobian (vent cross) nq i e) * N e k)) in
  let B := set_block B 0 q 6 4 (fun i k => B i (q + k)%nat + sumn 6 (fun a => m6ent (AdjW G) i a *
             sumn 4 (fun e => sumn 3 (fun f => matrix st a (3 + f)%nat * InverseTimesQuaternionDerivativeJacobian (st_qd st) f e) * N e k))) in
  (cmm_set_buffers s' B (cm_cbuffer s), fun i k => B (3 + i)%nat k).
(** CentroidalMomentumConstraint.cpp:414-452 constraintJacobianWRTControl. *)
Definition cmm_cjac (s : cmm) (t : R) (x u : vec) (J : mat) : cmm * mat :=
  let s' := cmm_update s t x u in
  let c := cm_cfg s in
  let st := cm_shared s' t in
  let G := centroidal_base st in
  let C := fun i k => sumn 6 (fun a => m6ent (AdjW G) i a * matrix st a k) in
  let B := set_block (cm_cbuffer s) 0 (at_linear c) 6 3 C in
  let B := set_block B 0 (at_quaternion_rate c) 6 4
             (fun i k => sumn 3 (fun f => C i (3 + f)%nat * QuaternionLeftTrivializedDerivativeInverse (NormalizedQuaternion (st_q st)) f k)) in
  let B := set_block B 0 (at_joint_rates c) 6 dofs (fun i k => C i (6 + k)%nat) in
  (cmm_set_buffers s' (cm_sbuffer s) B, fun i k => B (3 + i)%nat k).
(** CentroidalMomentumConstraint.cpp:477-525 constraintSecondPartialDerivativeWRTState. *)
Definition cmm_shess (s : cmm) (t : R) (x u lambda : vec) (H : mat) : cmm * mat :=
  let s' := cmm_update s t x u in
  let c := cm_cfg s in
  let st := cm_shared s' t in
  let q := at_quaternion c in
  let j := at_joints c in
  let H := set_block H q q 4 4 (second v_q v_q st lambda) in
  let m := second v_q v_s st lambda in
  let H := set_block H j q dofs 4 (fun a b => m b a) in
  let H := set_block H q j 4 dofs m in
  (s', set_block H j j dofs dofs (second v_s v_s st lambda)).
(** CentroidalMomentumConstraint.cpp:535-629 constraintSecondPartialDerivativeWRTStateControl. *)
Definition cmm_mhess (s : cmm) (t : R) (x u lambda : vec) (H : mat) : cmm * mat :=
  let s' := cmm_update s t x u in
  let c := cm_cfg s in
  let st := cm_shared s' t in
  let q := at_quaternion c in
  let j := at_joints c in
  let H := set_block H q (at_linear c) 4 3 (second v_q v_lin st lambda) in
  let H := set_block H q (at_quaternion_rate c) 4 4 (second v_q v_qdot st lambda) in
  let H := set_block H q (at_joint_rates c) 4 dofs (second v_q v_sdot st lambda) in
  let H := set_block H j (at_linear c) dofs 3 (second v_s v_lin st lambda) in
  let H := set_block H j (at_quaternion_rate c) dofs 4 (second v_s v_qdot st lambda) in
  (s', set_block H j (at_joint_rates c) dofs dofs (second v_s v_sdot st lambda)).
(** CentroidalMomentumConstraint.cpp:527-533: true, and nothing is written. *)
Definition cmm_class : constraint_class cmm :=
  {| c_eval := cmm_eval; c_sjac := cmm_sjac; c_cjac := cmm_cjac; c_shess := cmm_shess; c_chess := noop_hess; c_mhess := cmm_mhess |}.
(** CentroidalMomentumConstraint.cpp:152-182 setSparsity. *)
Definition cmm_patterns (s : cmm) : patterns :=
  let c := cm_cfg s in
  let q := at_quaternion c in
  let j := at_joints c in
  {| p_sjac := dense_block 0 j 3 dofs ++ identity_block 0 (at_momentum c + 3) 3 ++ dense_block 0 q 3 4;
     p_cjac := dense_block 0 (at_quaternion_rate c) 3 4 ++ dense_block 0 (at_linear c) 3 3 ++ dense_block 0 (at_joint_rates c) 3 dofs;
     p_shess := dense_block q q 4 4 ++ dense_block q j 4 dofs ++ dense_block j q dofs 4 ++ dense_block j j dofs dofs;
     p_chess := [];
     p_mhess := dense_block q (at_linear c) 4 3 ++ dense_block q (at_quaternion_rate c) 4 4 ++ dense_block q (at_joint_rates c) 4 dofs ++
                dense_block j (at_linear c) dofs 3 ++ dense_block j (at_quaternion_rate c) dofs 4 ++ dense_block j (at_joint_rates c) dofs dofs |}.
(** The setter, and the other users of the shared computations. *)
Inductive cmm_other : cmm -> cmm -> Prop :=
| cmm_other_tolerance s tol : cmm_other s (cmm_set_tolerance s tol)
| cmm_other_shared s g : cmm_other s (cmm_set_shared s g).
End Cmm.
