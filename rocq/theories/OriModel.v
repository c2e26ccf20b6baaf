(** Model of FrameOrientationCost.cpp.

    Simplifications: the desired quaternion, a levi variable, enters through the rotation it is set from
    (FrameOrientationCost.cpp:337); rotations that are not available at a time are None, as is the weight; the levi
    expressions are derived as in SymModel.v; the number of joints is the size of the range JointsPosition. *)
From Coq Require Import Reals List Arith Bool.
From Coquelicot Require Import Coquelicot.
From Verif Require Import Spec SpecRigid SpecBase SpecFeet SpecDerivatives ConstraintsModel CostsModel Quaternion KinModel KinLib SymModel BaseModel FeetModel.
Import ListNotations.
Local Open Scope R_scope.

(** FrameOrientationCost.cpp:129-130: quat_desired, timeVaryingWeight. *)
Definition v_des := 7%nat.
Definition v_weight := 8%nat.

Record ori_cfg := { fo_frame : nat; fo_pos : nat; fo_quat : nat; fo_joints : nat }.
Record ori := { fo_cfg : ori_cfg; fo_desired : R -> option m3; fo_weight : R -> option R; fo_shared : R -> env; fo_buffer : vec }.
(** FrameOrientationCost.cpp:83-164: the desired rotation is the identity, the weight is one, the buffer of the gradient is zero. *)
Definition ori_ctor (c : ori_cfg) (shared : R -> env) : ori :=
  {| fo_cfg := c; fo_desired := fun _ => Some m3I; fo_weight := fun _ => Some 1; fo_shared := shared; fo_buffer := fun _ => 0 |}.
(** FrameOrientationCost.cpp:176-187 setDesiredRotation, setDesiredRotationTrajectory (a null pointer is refused). *)
Definition ori_set_rotation (s : ori) (A : m3) : ori :=
  {| fo_cfg := fo_cfg s; fo_desired := fun _ => Some A; fo_weight := fo_weight s; fo_shared := fo_shared s; fo_buffer := fo_buffer s |}.
Definition ori_set_trajectory (s : ori) (o : option (R -> option m3)) : ori * bool :=
  match o with
  | None => (s, false)
  | Some g => ({| fo_cfg := fo_cfg s; fo_desired := g; fo_weight := fo_weight s; fo_shared := fo_shared s; fo_buffer := fo_buffer s |}, true)
  end.
(** FrameOrientationCost.cpp:189-193 setTimeVaryingWeight. *)
Definition ori_set_weight (s : ori) (g : R -> option R) : ori :=
  {| fo_cfg := fo_cfg s; fo_desired := fo_desired s; fo_weight := g; fo_shared := fo_shared s; fo_buffer := fo_buffer s |}.
Definition ori_set_shared (s : ori) (g : R -> env) : ori :=
  {| fo_cfg := fo_cfg s; fo_desired := fo_desired s; fo_weight := fo_weight s; fo_shared := g; fo_buffer := fo_buffer s |}.
Definition ori_set_buffer (s : ori) (g : vec) : ori :=
  {| fo_cfg := fo_cfg s; fo_desired := fo_desired s; fo_weight := fo_weight s; fo_shared := fo_shared s; fo_buffer := g |}.

Section Ori.
Variable r : robot.
Variable dofs : nat.
Variable up : nat -> nat -> option (nat * nat).
Variable base : nat.
Variable bt : formula.
Variable bt_dep : nat -> bool.
Variable rel : vec -> nat -> nat -> pose.
Variable ue : nat -> env -> mat.                     (* the values of the other expressions *)
Variable quat : m3 -> vec.                           (* Rotation::asQuaternion *)
Variable fjac : nat -> vec -> vec -> vec -> mat.     (* getFrameFreeFloatingJacobian, mixed representation *)
Variable qri : vec -> mat.                           (* Rotation::QuaternionRightTrivializedDerivativeInverse *)
Variable qrt : vec -> mat.                           (* Rotation::QuaternionRightTrivializedDerivative *)

(** The derivatives of the expressions: QuaternionErrorExpression.cpp:69-90 for the quaternion error. *)
Definition ori_du (k : kin) (c v : nat) : option formula :=
  match k with KOther f => err_derivative dofs base v_des f v | _ => deep r dofs up base bt bt_dep k c v end.
Definition ori_dcol := dcol dofs ori_du.
(** FrameOrientationCost.cpp:133: quaternionDifference. *)
Definition ori_difference (f : nat) : formula := FSub (leaf (KOther f)) (FConst 4 1 (fun i _ => quat m3I i)).
(** FrameOrientationCost.cpp:136-137: quaternionDerivative, jointsDerivative. *)
Definition ori_gradient (f v : nat) : option formula :=
  let D := ori_difference f in
  option_map (fun D' => FMul (FVar v_weight) (FTransp (FMul (FTransp D) D'))) (ori_dcol D 0 v).
(** FrameOrientationCost.cpp:139-141: quaternionHessian, jointsHessian, quaternionJointsHessian. *)
Definition ori_hessian (f v w : nat) : option formula :=
  match ori_gradient f v with Some G => ori_dcol G 0 w | None => None end.
Definition ori_at (Rd : m3) (rho : env) (o : option formula) : mat :=
  match o with Some D => meaning (vdim dofs) urows (ucols dofs) (with_err base rel quat Rd ue) rho D | None => fun _ _ => 0 end.

(** FrameOrientationCost.cpp:55-71 updateRobotState: the state at time t of the shared computations. *)
Definition ori_state (c : ori_cfg) (rho : env) (x : vec) : env :=
  env_set (env_set (env_set rho v_q (part x (fo_quat c) 4)) v_p (part x (fo_pos c) 3)) v_s (part x (fo_joints c) dofs).
Definition ori_update (s : ori) (t : R) (x : vec) : ori := ori_set_shared s (at_time (fo_shared s) t (ori_state (fo_cfg s) (fo_shared s t) x)).
(** FrameOrientationCost.cpp:221-223, 255-257: getWorldTransform, ErrorQuaternion (QuaternionUtils.cpp:130-134). *)
Definition ori_error (Rd : m3) (f : nat) (rho : env) : vec := quat (mm (mtr Rd) (frame_rotation base rel (rho v_q) (rho v_s) f)).
(** The difference from the identity: FrameOrientationCost.cpp:225-226, 259-260. *)
Definition ori_diff (Rd : m3) (f : nat) (rho : env) : vec := fun i => ori_error Rd f rho i - quat m3I i.
(** FrameOrientationCost.cpp:195-233 costEvaluation.  updateDoneOnceCost stays false, so the value is always computed. *)
Definition ori_eval (s : ori) (t : R) (x u : vec) : ori * option R :=
  let s' := ori_update s t x in
  (s', match fo_desired s t with
       | None => None
       | Some Rd => match fo_weight s t with
                    | None => None
                    | Some w => Some (1 / 2 * w * QuaternionSquaredNorm (ori_diff Rd (fo_frame (fo_cfg s)) (fo_shared s' t)))
                    end
       end).
(** FrameOrientationCost.cpp:267-269: notNormalizedQuaternionMap. *)
Definition ori_map (q : vec) : mat := fun a j => sumn 4 (fun k => qri (NormalizedQuaternion q) a k * NormalizedQuaternionDerivative q k j).
(** FrameOrientationCost.cpp:271-276: frameJacobianTimesMap. *)
Definition ori_jacobian (F : mat) (q : vec) : mat := fun a j =>
  if (j <? 3)%nat then F (3 + a)%nat j
  else if (j <? 7)%nat then sumn 3 (fun c => F (3 + a)%nat (3 + c)%nat * ori_map q c (j - 3)%nat)
  else F (3 + a)%nat (6 + (j - 7))%nat.
(** FrameOrientationCost.cpp:278-281: quaternionErrorPartialDerivative. *)
Definition ori_error_jacobian (Rd : m3) (e : vec) (J : mat) : mat := fun i j =>
  sumn 3 (fun c => sumn 3 (fun a => qrt e i a * ment (mtr Rd) a c) * J c j).
(** FrameOrientationCost.cpp:235-297 costFirstPartialDerivativeWRTState. *)
Definition ori_sgrad (s : ori) (t : R) (x u g : vec) : ori * option vec :=
  let s' := ori_update s t x in
  let c := fo_cfg s in
  let rho := fo_shared s' t in
  match fo_desired s t with
  | None => (s', None)
  | Some Rd => match fo_weight s t with
               | None => (s', None)
               | Some w =>
                   let e := ori_error Rd (fo_frame c) rho in
                   let d := ori_diff Rd (fo_frame c) rho in
                   let J := ori_jacobian (fjac (fo_frame c) (rho v_q) (rho v_p) (rho v_s)) (rho v_q) in
                   let E := ori_error_jacobian Rd e J in
                   let reduced j := w * sumn 4 (fun i => E i j * d i) in
                   let B := set_seg (fo_buffer s) (fo_quat c) 4 (fun k => reduced (3 + k)%nat) in
                   let B := set_seg B (fo_joints c) dofs (fun k => reduced (7 + k)%nat) in
                   (ori_set_buffer s' B, Some B)
               end
  end.
(** FrameOrientationCost.cpp:299-306 costFirstPartialDerivativeWRTControl: a buffer that stays zero. *)
Definition ori_cgrad (s : ori) (t : R) (x u g : vec) : ori * option vec := (s, Some (fun _ => 0)).
(** FrameOrientationCost.cpp:308-352 costSecondPartialDerivativeWRTState. *)
Definition ori_shess (s : ori) (t : R) (x u : vec) (H : mat) : ori * option mat :=
  let s' := ori_update s t x in
  let c := fo_cfg s in
  let f := fo_frame c in
  match fo_desired s t with
  | None => (s', None)
  | Some Rd => match fo_weight s t with
               | None => (s', None)
               | Some w =>
                   let rho := env_set (fo_shared s' t) v_weight (fun _ => w) in
                   let H := set_block H (fo_quat c) (fo_quat c) 4 4 (ori_at Rd rho (ori_hessian f v_q v_q)) in
                   let H := set_block H (fo_joints c) (fo_joints c) dofs dofs (ori_at Rd rho (ori_hessian f v_s v_s)) in
                   let m := ori_at Rd rho (ori_hessian f v_q v_s) in
                   let H := set_block H (fo_quat c) (fo_joints c) 4 dofs m in
                   let H := set_block H (fo_joints c) (fo_quat c) dofs 4 (fun i j => m j i) in
                   (s', Some H)
               end
  end.
(** FrameOrientationCost.cpp:354-364: the other two return true and write nothing. *)
Definition ori_class : cost_class ori :=
  {| k_eval := ori_eval; k_sgrad := ori_sgrad; k_cgrad := ori_cgrad; k_shess := ori_shess; k_chess := noop_khess; k_mhess := noop_khess |}.
(** FrameOrientationCost.cpp:143-149, 366-386; the gradient may fill the entries of the quaternion and of the joints. *)
Definition ori_supports (s : ori) : supports :=
  let q := fo_quat (fo_cfg s) in
  let j := fo_joints (fo_cfg s) in
  {| q_sgrad := seq q 4 ++ seq j dofs; q_cgrad := [];
     q_shess := dense_block q q 4 4 ++ dense_block q j 4 dofs ++ dense_block j q dofs 4 ++ dense_block j j dofs dofs;
     q_chess := []; q_mhess := [] |}.
(** The setters, and the other users of the shared computations. *)
Inductive ori_other : ori -> ori -> Prop :=
| ori_other_rotation s A : rotation A -> ori_other s (ori_set_rotation s A)
| ori_other_trajectory s o : (forall g t A, o = Some g -> g t = Some A -> rotation A) -> ori_other s (fst (ori_set_trajectory s o))
| ori_other_weight s g : ori_other s (ori_set_weight s g)
| ori_other_shared s g : ori_other s (ori_set_shared s g).
End Ori.
