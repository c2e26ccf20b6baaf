(** Model of the expressions of the base of the robot: QuaternionExpressions.cpp, the constructor of ExpressionsServer,
    and QuaternionErrorExpression.cpp.  The formulas are those of SpecDerivatives.v; see KinModel.v for the conventions. *)
From Coq Require Import Reals List Arith Bool QArith.
From Coquelicot Require Import Coquelicot.
From Verif Require Import Spec SpecQuaternion SpecRigid SpecBase SpecDerivatives KinModel.
Import ListNotations.
Local Open Scope R_scope.

(** ExpressionsServer.cpp:32-45: baseQuaternion, basePosition, baseLinearVelocity, baseQuaternionVelocity. *)
Definition v_q := 2%nat.
Definition v_p := 3%nat.
Definition v_lin := 4%nat.
Definition v_qdot := 5%nat.

(** QuaternionExpressions.cpp:41-45 NormalizedQuaternion; ExpressionsServer.cpp:71. *)
Definition normalized (u : nat) : formula := FDiv (FVar u) (FPow (FMul (FTransp (FVar u)) (FVar u)) (1 # 2)).
(** QuaternionExpressions.cpp:11-18 RotationExpression; ExpressionsServer.cpp:72-76. *)
Definition rotation_formula (q : formula) : formula :=
  let sk := FSkew (FBlock q 1 0 3 1) in
  let two := FMul (scalar 2) sk in
  FAdd (FAdd (FIdent 3) (FMul (FElem q 0 0) two)) (FMul two sk).
Definition base_rotation : formula := rotation_formula (normalized v_q).
(** QuaternionExpressions.cpp:20-27 E_Expression. *)
Definition E_formula (q : formula) : formula :=
  let im := FBlock q 1 0 3 1 in
  FHorz (FNeg im) (FAdd (FMul (FIdent 3) (FElem q 0 0)) (FSkew im)).
(** QuaternionExpressions.cpp:47-52 BodyTwistFromQuaternionVelocity. *)
Definition body_twist (lin qd qn : formula) : formula := FVert lin (FMul (FMul (scalar 2) (G_formula qn)) qd).
(** ExpressionsServer.cpp:82-85: baseTwist. *)
Definition base_twist : formula :=
  let qn := normalized v_q in
  let re := FElem qn 0 0 in
  let mi := FNeg (FBlock qn 1 0 3 1) in
  FVert (FVar v_lin)
    (FMul (scalar 2)
       (FAdd (FMul mi (FElem (FVar v_qdot) 0 0))
             (FMul (FSub (FMul (FElem re 0 0) (FIdent 3)) (FSkew mi)) (FBlock (FVar v_qdot) 1 0 3 1)))).
(** ExpressionsServer.cpp:489: baseTwist().asVariable(). *)
Definition default_twist : formula := FAsVar v_twist base_twist.

(** QuaternionErrorExpression.cpp:50-63 evaluate: the quaternion of inverse(desired) * (rotation of the frame)
    (QuaternionUtils.cpp:130-134 ErrorQuaternion).  [Rd] is the desired rotation; the world transform of the frame is the
    pose of the base times the transform from the frame to the base. *)
Section Err.
Variable r : robot.
Variable dofs : nat.
Variable base : nat.
Variable rel : vec -> nat -> nat -> pose.
Variable quat : m3 -> vec.
Variable Rd : m3.
Definition frame_rotation (q s : vec) (f : nat) : m3 := mm (qmat (qunit q)) (rot (rel s base f)).
Definition err_value (f : nat) (rho : env) : vec := quat (mm (mtr Rd) (frame_rotation (rho v_q) (rho v_s) f)).
(** QuaternionErrorExpression.cpp:69-90.  [v_des] is the variable of the desired quaternion: its derivative is an empty
    expression.  The error is written again as a new object with the same value; its number is KOther f. *)
Definition err_joints (f : nat) : formula :=
  FMul (FMul (scalar (1 / 2)) (FTransp (G_formula (leaf (KOther f))))) (FBlock (reljac dofs base f) 3 0 3 dofs).
Definition err_quaternion (f : nat) : formula :=
  FMul (FMul (FMul (FTransp (G_formula (leaf (KOther f)))) (relrot f base)) (G_formula (normalized v_q))) (FDeriv (normalized v_q) 0 v_q).
Definition err_derivative (v_des f v : nat) : option formula :=
  if (v =? v_s)%nat then Some (err_joints f)
  else if (v =? v_q)%nat then Some (err_quaternion f)
  else if (v =? v_des)%nat then None
  else Some (FNull 4 (vdim dofs v)).
(** The values of all the expressions, with those of the quaternion errors. *)
Definition with_err (ue : nat -> env -> mat) (n : nat) (rho : env) : mat :=
  match decode n with KOther f => fun i _ => err_value f rho i | _ => ue n rho end.
End Err.
