(** Model of CoMPositionConstraint.cpp.

    Simplifications: as in ContactModel.v.  The constructors of the Hessians of the centre of mass call each other: [n] bounds
    the nesting (ComModel.hess), and where it does not suffice the derivative is None. *)
From Coq Require Import Reals List Arith Bool.
From Coquelicot Require Import Coquelicot.
From Verif Require Import Spec SpecRigid SpecBase SpecFeet SpecCom SpecDerivatives ConstraintsModel CostsModel Quaternion KinModel KinLib SymModel BaseModel FeetModel ComModel.
Import ListNotations.
Local Open Scope R_scope.

Record compos_cfg := { cp_pos : nat; cp_quat : nat; cp_joints : nat; cp_com : nat }.
Record compos := { cp_cfg : compos_cfg; cp_lower : R; cp_upper : R; cp_shared : R -> env; cp_buffer : mat }.
(** CoMPositionConstraint.cpp:108-157: buffers and bounds are zero. *)
Definition compos_ctor (c : compos_cfg) (shared : R -> env) : compos :=
  {| cp_cfg := c; cp_lower := 0; cp_upper := 0; cp_shared := shared; cp_buffer := fun _ _ => 0 |}.
(** CoMPositionConstraint.cpp:162-168 setEqualityTolerance. *)
Definition compos_set_tolerance (s : compos) (tol : R) : compos :=
  {| cp_cfg := cp_cfg s; cp_lower := - tol / 2; cp_upper := tol / 2; cp_shared := cp_shared s; cp_buffer := cp_buffer s |}.
Definition compos_set_shared (s : compos) (g : R -> env) : compos :=
  {| cp_cfg := cp_cfg s; cp_lower := cp_lower s; cp_upper := cp_upper s; cp_shared := g; cp_buffer := cp_buffer s |}.

Section ComPos.
Variable r : robot.
Variable b : masses.
Variable dofs : nat.
Variable up : nat -> nat -> option (nat * nat).
Variable base : nat.
Variable ue : nat -> env -> mat.                    (* the values of the other expressions *)
Variable n : nat.
Variable cpos : vec -> vec -> vec -> v3.            (* getCenterOfMassPosition *)
Variable cjac : vec -> vec -> vec -> mat.           (* getCenterOfMassJacobian *)
Variable qri : vec -> mat.                          (* QuaternionRightTrivializedDerivativeInverse *)
Notation Hess := (hess r b dofs up base ue n).

(** The values of the expressions: CoMInBaseExpression.cpp:152-159, 253-269, 320-341. *)
Definition com_ue (m : nat) : env -> mat :=
  match decode m with
  | KCom O => com_value cpos
  | KCom (S O) => com_jac_value cjac
  | KCom (S (S c)) => match Hess c with Some h => h | None => fun _ _ _ => 0 end
  | _ => ue m
  end.
(** Their derivatives: CoMInBaseExpression.cpp:353-366, 283-294 (levi/Evaluable.h:292-301 gives a null matrix of the right size
    for the variables the expression does not depend on). *)
Definition com_du (k : kin) (c v : nat) : option formula :=
  match k with
  | KCom O => Some (if (v =? v_s)%nat then leaf (KCom 1) else FNull 3 (vdim dofs v))
  | KCom (S O) => if (v =? v_s)%nat then match Hess c with Some _ => Some (leaf (KCom (2 + c))) | None => None end
                  else Some (FNull 3 (vdim dofs v))
  | _ => None
  end.
Definition com_dcol := dcol dofs com_du.
Definition bind_com (o : option formula) (i v : nat) : option formula := match o with None => None | Some D => com_dcol D i v end.
Definition com_at (rho : env) (o : option formula) : mat :=
  match o with Some D => meaning (vdim dofs) urows (ucols dofs) com_ue rho D | None => fun _ _ => 0 end.
(** CoMPositionConstraint.cpp:152-155: worldToBase() * comInBase() (TransformExpression.cpp:64-67). *)
Definition com_expression : formula := FAdd (FVar v_p) (FMul base_rotation (leaf (KCom 0))).
Definition com_quaternion_derivative := com_dcol com_expression 0 v_q.
Definition com_joints_derivative := com_dcol com_expression 0 v_s.

(** CoMPositionConstraint.cpp:51-73 updateVariables: the state at time t of the shared computations. *)
Definition compos_state (c : compos_cfg) (rho : env) (x : vec) : env :=
  env_set (env_set (env_set rho v_q (part x (cp_quat c) 4)) v_p (part x (cp_pos c) 3)) v_s (part x (cp_joints c) dofs).
Definition compos_update (s : compos) (t : R) (x : vec) : compos :=
  compos_set_shared s (at_time (cp_shared s) t (compos_state (cp_cfg s) (cp_shared s t) x)).
(** CoMPositionConstraint.cpp:170-187 evaluateConstraint. *)
Definition compos_eval (s : compos) (t : R) (x u : vec) : compos * vec :=
  let s' := compos_update s t x in
  let rho := cp_shared s' t in
  (s', fun i => vent (cpos (rho v_q) (rho v_p) (rho v_s)) i - x (cp_com (cp_cfg s) + i)%nat).
(** CoMPositionConstraint.cpp:205: notNormalizedQuaternionMap. *)
Definition quaternion_map (q : vec) : mat :=
  fun a j => sumn 4 (fun k => qri (NormalizedQuaternion q) a k * NormalizedQuaternionDerivative q k j).
(** CoMPositionConstraint.cpp:189-218 constraintJacobianWRTState. *)
Definition compos_sjac (s : compos) (t : R) (x u : vec) (J : mat) : compos * mat :=
  let s' := compos_update s t x in
  let c := cp_cfg s in
  let rho := cp_shared s' t in
  let C := cjac (rho v_q) (rho v_p) (rho v_s) in
  let B := cp_buffer s in
  let B := set_block B 0 (cp_pos c) 3 3 (fun i j => C i j) in
  let B := set_block B 0 (cp_quat c) 3 4 (fun i j => sumn 3 (fun a => C i (3 + a)%nat * quaternion_map (rho v_q) a j)) in
  let B := set_block B 0 (cp_joints c) 3 dofs (fun i j => C i (6 + j)%nat) in
  let B := set_block B 0 (cp_com c) 3 3 (scaled_identity (-1)) in
  ({| cp_cfg := c; cp_lower := cp_lower s; cp_upper := cp_upper s; cp_shared := cp_shared s'; cp_buffer := B |}, B).
(** CoMPositionConstraint.cpp:220-224 constraintJacobianWRTControl. *)
Definition compos_cjac (s : compos) (t : R) (x u : vec) (J : mat) : compos * mat := (s, fun _ _ => 0).
Definition com_lambda (rho : env) (D : option formula) (lambda : vec) (j : nat) : R := sumn 3 (fun a => com_at rho D a j * lambda a).
(** CoMPositionConstraint.cpp:248-293 constraintSecondPartialDerivativeWRTState. *)
Definition compos_shess (s : compos) (t : R) (x u lambda : vec) (H : mat) : compos * mat :=
  let s' := compos_update s t x in
  let c := cp_cfg s in
  let rho := cp_shared s' t in
  let H := fold_left (fun H i =>
      let H := set_block H (cp_quat c + i) (cp_quat c) 1 4 (fun _ j => com_lambda rho (bind_com com_quaternion_derivative i v_q) lambda j) in
      let m := com_lambda rho (bind_com com_quaternion_derivative i v_s) lambda in
      let H := set_block H (cp_quat c + i) (cp_joints c) 1 dofs (fun _ j => m j) in
      set_block H (cp_joints c) (cp_quat c + i) dofs 1 (fun j _ => m j)) (seq 0 4) H in
  (s', fold_left (fun H i => set_block H (cp_joints c) (cp_joints c + i) dofs 1
         (fun a _ => com_lambda rho (bind_com com_joints_derivative i v_s) lambda a)) (seq 0 dofs) H).
(** CoMPositionConstraint.cpp:295-309: the other two return true and write nothing. *)
Definition compos_class : constraint_class compos :=
  {| c_eval := compos_eval; c_sjac := compos_sjac; c_cjac := compos_cjac; c_shess := compos_shess; c_chess := noop_hess; c_mhess := noop_hess |}.
(** CoMPositionConstraint.cpp:84-104 setSparsity. *)
Definition compos_patterns (s : compos) : patterns :=
  let c := cp_cfg s in
  let q := cp_quat c in
  let j := cp_joints c in
  {| p_sjac := identity_block 0 (cp_pos c) 3 ++ dense_block 0 q 3 4 ++ dense_block 0 j 3 dofs ++ identity_block 0 (cp_com c) 3;
     p_cjac := [];
     p_shess := dense_block q q 4 4 ++ dense_block q j 4 dofs ++ dense_block j q dofs 4 ++ dense_block j j dofs dofs;
     p_chess := []; p_mhess := [] |}.
(** The setter, and the other users of the shared computations. *)
Inductive compos_other : compos -> compos -> Prop :=
| compos_other_tolerance s tol : compos_other s (compos_set_tolerance s tol)
| compos_other_shared s g : compos_other s (compos_set_shared s g).
End ComPos.
