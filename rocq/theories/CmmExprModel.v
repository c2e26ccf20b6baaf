(** Model of CentroidalMomentumConstraint::Implementation::constructExpressions (CentroidalMomentumConstraint.cpp:184-240)
    and of QuaternionExpressions.cpp.

    An expression is represented by its value as a matrix for every value of the variables.  Simplification: the derivative
    that levi (and, for the nodes CoMInBaseExpression and MomentumInBaseExpression, the methods of C65 and C72) builds is
    represented by the derivative of the value, entry by entry: the rules of levi give it (C45), and so do those methods (C65, C72).  An independent variable made from an expression (asIndependentVariable) is a variable of its own. *)
From Coq Require Import Reals List Arith Bool.
From Coquelicot Require Import Coquelicot.
From Verif Require Import Spec SpecQuaternion SpecRigid SpecBase SpecDerivatives SpecCom KinModel BaseModel ComModel SymModel FeetModel MomModel MibModel Quaternion CmmModel.
Import ListNotations.
Local Open Scope R_scope.

Definition v_n := 9%nat.        (* normalizedQuaternion, cpp:191 *)
Definition v_com := 10%nat.     (* comPositionVariable, cpp:192 *)
Definition v_lambda := 11%nat.  (* lagrangeMultipliers, cpp:65 *)

(** The operators of levi. *)
Definition expression := env -> mat.
Definition e_var (v : nat) : expression := fun rho i _ => rho v i.
Definition e_identity : expression := fun _ i j => delta i j.
Definition e_add (a b : expression) : expression := fun rho i j => a rho i j + b rho i j.
Definition e_neg (a : expression) : expression := fun rho i j => - a rho i j.
Definition e_scale (c : R) (a : expression) : expression := fun rho i j => c * a rho i j.
(** The product of an expression with a 1 x 1 one. *)
Definition e_times (a b : expression) : expression := fun rho i j => a rho 0%nat 0%nat * b rho i j.
Definition e_mul (n : nat) (a b : expression) : expression := fun rho i j => sumn n (fun k => a rho i k * b rho k j).
Definition e_transpose (a : expression) : expression := fun rho i j => a rho j i.
Definition e_rows (o : nat) (a : expression) : expression := fun rho i j => a rho (o + i)%nat j.
Definition e_skew (a : expression) : expression := fun rho => Quaternion.skew (fun i => a rho i 0%nat).
Definition e_horz (n : nat) (a b : expression) : expression := fun rho i j => if (j <? n)%nat then a rho i j else b rho i (j - n)%nat.
Definition e_vert (n : nat) (a b : expression) : expression := fun rho i j => if (i <? n)%nat then a rho i j else b rho (i - n)%nat j.
(** getColumnDerivative(column, variable). *)
Definition column_derivative (a : expression) (column v : nat) : expression :=
  fun rho i k => Derive (fun x => a (at_entry rho v k x) i column) (rho v k).

(** QuaternionExpressions.cpp:11-18 RotationExpression. *)
Definition rotation_expression (q : expression) : expression :=
  let skewQuaternion := e_skew (e_rows 1 q) in
  let twoSkewQuaternion := e_scale 2 skewQuaternion in
  e_add (e_add e_identity (e_times q twoSkewQuaternion)) (e_mul 3 twoSkewQuaternion skewQuaternion).
(** QuaternionExpressions.cpp:29-37 G_Expression. *)
Definition G_expression (q : expression) : expression :=
  let minusQuaternion := e_neg (e_rows 1 q) in
  let otherColumns := e_add (e_times q e_identity) (e_skew minusQuaternion) in
  e_horz 1 minusQuaternion otherColumns.
(** QuaternionExpressions.cpp:45-50 BodyTwistFromQuaternionVelocity. *)
Definition body_twist_expression (linear rate q : expression) : expression := e_vert 3 linear (e_mul 4 (e_scale 2 (G_expression q)) rate).
(** ExpressionsServer.cpp:73: the normalized quaternion. *)
Definition normalized_expression : expression := fun rho i _ => rho v_q i / sqrt (sumn 4 (fun k => rho v_q k * rho v_q k)).

Section Expressions.
Variable r : robot.
Variable dofs : nat.
Variable up : nat -> nat -> option (nat * nat).
Variable base : nat.
Variable inertia : nat -> m6.
Variable rel : vec -> nat -> nat -> pose.
Variable vel : point -> nat -> v6.
Variable cpos : vec -> vec -> vec -> v3.

Definition twist_of (t : expression) (rho : env) : v6 :=
  V6 (V3 (t rho 0%nat 0%nat) (t rho 1%nat 0%nat) (t rho 2%nat 0%nat)) (V3 (t rho 3%nat 0%nat) (t rho 4%nat 0%nat) (t rho 5%nat 0%nat)).
(** MomentumInBaseExpression, for an expression of the base twist. *)
Definition momentum_expression (t : expression) : expression :=
  fun rho i _ => v6ent (mib_value r base inertia rel vel (Point (rho v_s) (rho v_sdot) (twist_of t rho))) i.
(** comInBase(). *)
Definition com_expression : expression := com_value cpos.

(** cpp:195-197. *)
Definition base_twist_expression : expression := body_twist_expression (e_var v_lin) (e_var v_qdot) (e_var v_n).
(** cpp:199-206: asExpression. *)
Definition centroidal_expression : expression :=
  let mixedAdjointBottomRows := e_mul 3 (rotation_expression (e_var v_n)) (e_horz 3 (e_skew (e_neg (e_var v_com))) e_identity) in
  e_mul 6 mixedAdjointBottomRows (momentum_expression base_twist_expression).
(** cpp:208-209. *)
Definition quaternion_map_expression : expression := column_derivative normalized_expression 0 v_q.
(** cpp:213. *)
Definition com_jacobian_expression : expression := column_derivative com_expression 0 v_s.
(** cpp:218. *)
Definition lagrangian : expression := e_mul 3 (e_transpose (e_var v_lambda)) centroidal_expression.
(** cpp:219-220. *)
Definition joints_lagrangian : expression :=
  e_transpose (e_add (column_derivative lagrangian 0 v_s) (e_mul 3 (column_derivative lagrangian 0 v_com) com_jacobian_expression)).
(** cpp:221. *)
Definition quaternion_lagrangian : expression := e_transpose (e_mul 4 (column_derivative lagrangian 0 v_n) quaternion_map_expression).
(** cpp:223-239: the expressions of the Hessians. *)
Definition quat_quat : expression :=
  e_add (column_derivative quaternion_lagrangian 0 v_q) (e_mul 4 (column_derivative quaternion_lagrangian 0 v_n) quaternion_map_expression).
Definition quat_joints : expression :=
  e_add (column_derivative quaternion_lagrangian 0 v_s) (e_mul 3 (column_derivative quaternion_lagrangian 0 v_com) com_jacobian_expression).
Definition joints_joints : expression :=
  e_add (column_derivative joints_lagrangian 0 v_s) (e_mul 3 (column_derivative joints_lagrangian 0 v_com) com_jacobian_expression).
Definition quat_lin : expression := column_derivative quaternion_lagrangian 0 v_lin.
Definition quat_rate : expression := column_derivative quaternion_lagrangian 0 v_qdot.
Definition quat_joint_rates : expression := column_derivative quaternion_lagrangian 0 v_sdot.
Definition joints_lin : expression := column_derivative joints_lagrangian 0 v_lin.
Definition joints_rate : expression := column_derivative joints_lagrangian 0 v_qdot.
Definition joints_joint_rates : expression := column_derivative joints_lagrangian 0 v_sdot.

(** The values of the variables: ExpressionsServer.cpp:127-155 updateRobotState, CentroidalMomentumConstraint.cpp:491, 557 (the multipliers); the independent
    variables have the values of the expressions they are made from. *)
Definition variables (st : rstate) (lambda : vec) : env :=
  let rho : env := fun v => if (v =? v_s)%nat then st_s st else if (v =? v_sdot)%nat then st_sd st else if (v =? v_q)%nat then st_q st
    else if (v =? v_p)%nat then st_p st else if (v =? v_lin)%nat then st_lin st else if (v =? v_qdot)%nat then st_qd st
    else if (v =? v_lambda)%nat then lambda else fun _ => 0 in
  env_set (env_set rho v_n (fun i => normalized_expression rho i 0%nat)) v_com (fun i => com_expression rho i 0%nat).
(** What the asynchronous evaluations return (CentroidalMomentumConstraint.cpp:493-495, 559-564). *)
Definition cmm_second (v w : nat) (st : rstate) (lambda : vec) : mat :=
  let rho := variables st lambda in
  if (v =? v_q)%nat then
    if (w =? v_q)%nat then quat_quat rho else if (w =? v_s)%nat then quat_joints rho else if (w =? v_lin)%nat then quat_lin rho
    else if (w =? v_qdot)%nat then quat_rate rho else quat_joint_rates rho
  else
    if (w =? v_s)%nat then joints_joints rho else if (w =? v_lin)%nat then joints_lin rho
    else if (w =? v_qdot)%nat then joints_rate rho else joints_joint_rates rho.
End Expressions.
