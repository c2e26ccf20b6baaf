(** Model of FrameAngularVelocityCost.cpp.

    Simplifications: rotations that are not available at a time are None; the desired rotation, a levi::Mutable, is a
    constant that is set before the evaluation (FrameAngularVelocityCost.cpp:195); levi expressions are derived as in SymModel.v; the
    second derivatives with respect to the state and to state and control are not modelled: what their expressions
    evaluate to is a parameter (second). *)
From Coq Require Import Reals List Arith Bool.
From Coquelicot Require Import Coquelicot.
From Verif Require Import Spec SpecRigid SpecBase SpecFeet SpecDerivatives ConstraintsModel CostsModel KinModel KinLib SymModel BaseModel FeetModel.
Import ListNotations.
Local Open Scope R_scope.

Record ang_cfg := { fa_frame : nat; fa_gain : R; fa_pos : nat; fa_quat : nat; fa_joints : nat; fa_quat_vel : nat; fa_joints_vel : nat }.
Record turning := { fa_cfg : ang_cfg; fa_desired : R -> option m3; fa_shared : R -> env; fa_sbuffer : vec; fa_cbuffer : vec }.
(** FrameAngularVelocityCost.cpp:93-150: the desired rotation is the identity, the buffers of the gradients are zero. *)
Definition ang_ctor (c : ang_cfg) (shared : R -> env) : turning :=
  {| fa_cfg := c; fa_desired := fun _ => Some m3I; fa_shared := shared; fa_sbuffer := fun _ => 0; fa_cbuffer := fun _ => 0 |}.
(** FrameAngularVelocityCost.cpp:168-174 setDesiredRotationTrajectory (a null pointer is refused). *)
Definition ang_set_trajectory (s : turning) (o : option (R -> option m3)) : turning * bool :=
  match o with
  | None => (s, false)
  | Some g => ({| fa_cfg := fa_cfg s; fa_desired := g; fa_shared := fa_shared s; fa_sbuffer := fa_sbuffer s; fa_cbuffer := fa_cbuffer s |}, true)
  end.
Definition ang_set_shared (s : turning) (g : R -> env) : turning :=
  {| fa_cfg := fa_cfg s; fa_desired := fa_desired s; fa_shared := g; fa_sbuffer := fa_sbuffer s; fa_cbuffer := fa_cbuffer s |}.
Definition ang_set_buffers (s : turning) (a b : vec) : turning :=
  {| fa_cfg := fa_cfg s; fa_desired := fa_desired s; fa_shared := fa_shared s; fa_sbuffer := a; fa_cbuffer := b |}.

Section Ang.
Variable r : robot.
Variable dofs : nat.
Variable up : nat -> nat -> option (nat * nat).
Variable base : nat.
Variable ue : nat -> env -> mat.                       (* the values of the kinematic expressions *)
Variable bt : formula.                                 (* baseTwist().asVariable(): ExpressionsServer.cpp:487-490 *)
Variable bt_dep : nat -> bool.
Variable second : nat -> nat -> m3 -> env -> mat.      (* what the second derivatives evaluate to: two variables, desired rotation, state *)

(** What getColumnDerivative returns: AbsoluteVelocityExpression.cpp:79-95 for the velocity of the frame. *)
Definition ang_du (k : kin) (c v : nat) : option formula :=
  match k with KAbs f => derivative r dofs up base bt bt_dep (KAbs f) c v | _ => deep r dofs up base bt bt_dep k c v end.
Definition ang_dcol := dcol dofs ang_du.
(** FrameAngularVelocityCost.cpp:66-69: frameRotation, rotationErrorExpression. *)
Definition ang_turn (Rd : m3) (f : nat) : formula := FMul (FMul base_rotation (relrot base f)) (FTransp (FConst 3 3 (ment Rd))).
(** FrameAngularVelocityCost.cpp:65, 71-73: frameAngularVelocity, skewError, velocityError. *)
Definition ang_error (Rd : m3) (k : R) (f : nat) : formula :=
  let E := ang_turn Rd f in
  FAdd (FBlock (absvel base bt f) 3 0 3 1) (FMul (scalar k) (FVee (FMul (scalar (1 / 2)) (FSub E (FTransp E))))).
(** FrameAngularVelocityCost.cpp:75 asExpression. *)
Definition ang_expression (Rd : m3) (k : R) (f : nat) : formula := let e := ang_error Rd k f in FMul (FMul (scalar (1 / 2)) (FTransp e)) e.
(** FrameAngularVelocityCost.cpp:77-80. *)
Definition ang_gradient (Rd : m3) (k : R) (f v : nat) : option formula :=
  let e := ang_error Rd k f in option_map (fun D => FTransp (FMul (FTransp e) D)) (ang_dcol e 0 v).
Notation M := (meaning (vdim dofs) urows (ucols dofs) ue).
Definition ang_at (rho : env) (o : option formula) : mat := match o with Some D => M rho D | None => fun _ _ => 0 end.

(** FrameAngularVelocityCost.cpp:44-60 updateRobotState: the position and the quaternion of the base and the positions of the
    joints; the velocities of the shared state, which the expressions use (ExpressionsServer.cpp:151-175), stay as they are. *)
Definition ang_state (c : ang_cfg) (rho : env) (x : vec) : env :=
  env_set (env_set (env_set rho v_q (part x (fa_quat c) 4)) v_p (part x (fa_pos c) 3)) v_s (part x (fa_joints c) dofs).
Definition ang_update (s : turning) (t : R) (x : vec) : turning := ang_set_shared s (at_time (fa_shared s) t (ang_state (fa_cfg s) (fa_shared s t) x)).
(** FrameAngularVelocityCost.cpp:176-200 costEvaluation. *)
Definition ang_eval (s : turning) (t : R) (x u : vec) : turning * option R :=
  let s' := ang_update s t x in
  let c := fa_cfg s in
  (s', match fa_desired s t with
       | None => None
       | Some Rd => Some (M (fa_shared s' t) (ang_expression Rd (fa_gain c) (fa_frame c)) 0%nat 0%nat)
       end).
(** FrameAngularVelocityCost.cpp:202-233 costFirstPartialDerivativeWRTState. *)
Definition ang_sgrad (s : turning) (t : R) (x u g : vec) : turning * option vec :=
  let s' := ang_update s t x in
  let c := fa_cfg s in
  match fa_desired s t with
  | None => (s', None)
  | Some Rd =>
      let rho := fa_shared s' t in
      let D v := ang_at rho (ang_gradient Rd (fa_gain c) (fa_frame c) v) in
      let B := set_seg (fa_sbuffer s) (fa_quat c) 4 (fun k => D v_q k 0%nat) in
      let B := set_seg B (fa_joints c) dofs (fun k => D v_s k 0%nat) in
      (ang_set_buffers s' B (fa_cbuffer s), Some B)
  end.
(** FrameAngularVelocityCost.cpp:235-266 costFirstPartialDerivativeWRTControl. *)
Definition ang_cgrad (s : turning) (t : R) (x u g : vec) : turning * option vec :=
  let s' := ang_update s t x in
  let c := fa_cfg s in
  match fa_desired s t with
  | None => (s', None)
  | Some Rd =>
      let rho := fa_shared s' t in
      let D v := ang_at rho (ang_gradient Rd (fa_gain c) (fa_frame c) v) in
      let B := set_seg (fa_cbuffer s) (fa_quat_vel c) 4 (fun k => D v_qdot k 0%nat) in
      let B := set_seg B (fa_joints_vel c) dofs (fun k => D v_sdot k 0%nat) in
      (ang_set_buffers s' (fa_sbuffer s) B, Some B)
  end.
(** FrameAngularVelocityCost.cpp:268-306 costSecondPartialDerivativeWRTState. *)
Definition ang_shess (s : turning) (t : R) (x u : vec) (H : mat) : turning * option mat :=
  let s' := ang_update s t x in
  let c := fa_cfg s in
  match fa_desired s t with
  | None => (s', None)
  | Some Rd =>
      let rho := fa_shared s' t in
      let m := second v_q v_s Rd rho in
      let H := set_block H (fa_quat c) (fa_quat c) 4 4 (second v_q v_q Rd rho) in
      let H := set_block H (fa_joints c) (fa_joints c) dofs dofs (second v_s v_s Rd rho) in
      let H := set_block H (fa_quat c) (fa_joints c) 4 dofs m in
      (s', Some (set_block H (fa_joints c) (fa_quat c) dofs 4 (fun i j => m j i)))
  end.
(** FrameAngularVelocityCost.cpp:308-312 costSecondPartialDerivativeWRTControl: true, nothing is written; the declared pattern
    is empty (:148).  FrameAngularVelocityCost.cpp:314-352 costSecondPartialDerivativeWRTStateControl. *)
Definition ang_mhess (s : turning) (t : R) (x u : vec) (H : mat) : turning * option mat :=
  let s' := ang_update s t x in
  let c := fa_cfg s in
  match fa_desired s t with
  | None => (s', None)
  | Some Rd =>
      let rho := fa_shared s' t in
      let H := set_block H (fa_quat c) (fa_quat_vel c) 4 4 (second v_q v_qdot Rd rho) in
      let H := set_block H (fa_quat c) (fa_joints_vel c) 4 dofs (second v_q v_sdot Rd rho) in
      let H := set_block H (fa_joints c) (fa_joints_vel c) dofs dofs (second v_s v_sdot Rd rho) in
      (s', Some (set_block H (fa_joints c) (fa_quat_vel c) dofs 4 (second v_s v_qdot Rd rho)))
  end.
Definition ang_class : cost_class turning :=
  {| k_eval := ang_eval; k_sgrad := ang_sgrad; k_cgrad := ang_cgrad; k_shess := ang_shess; k_chess := noop_khess; k_mhess := ang_mhess |}.
(** FrameAngularVelocityCost.cpp:138-148, 354-370; the gradients may fill the entries of the four ranges. *)
Definition ang_supports (s : turning) : supports :=
  let c := fa_cfg s in
  let q := fa_quat c in let j := fa_joints c in let qv := fa_quat_vel c in let jv := fa_joints_vel c in
  {| q_sgrad := seq q 4 ++ seq j dofs; q_cgrad := seq qv 4 ++ seq jv dofs;
     q_shess := dense_block q q 4 4 ++ dense_block q j 4 dofs ++ dense_block j q dofs 4 ++ dense_block j j dofs dofs;
     q_chess := [];
     q_mhess := dense_block q qv 4 4 ++ dense_block q jv 4 dofs ++ dense_block j qv dofs 4 ++ dense_block j jv dofs dofs |}.
(** The setter, and the other users of the shared computations (which never move baseTwist as a variable). *)
Inductive ang_other : turning -> turning -> Prop :=
| ang_other_trajectory s o : ang_other s (fst (ang_set_trajectory s o))
| ang_other_shared s g : (forall t i, g t v_twist i = 0) -> ang_other s (ang_set_shared s g).
End Ang.
