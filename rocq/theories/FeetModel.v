(** Model of FeetLateralDistanceConstraint.cpp.

    Simplifications: [shared t] is the state of the SharedKinDynComputations of time t (C54); comparisons of states up to
    a tolerance are exact; names of frames are indices; IndexRange JointsPosition is (offset, number of degrees of freedom);
    iDynTree is the oracle of KinModel.v; an expression that could not be built evaluates to zero. *)
From Coq Require Import Reals List Arith Bool.
From Coquelicot Require Import Coquelicot.
From Verif Require Import Spec SpecRigid SpecDerivatives SpecFeet ConstraintsModel CostsModel KinModel KinLib SymModel.
Import ListNotations.
Local Open Scope R_scope.

Record feet_cfg := { ft_joints : nat; ft_index : nat; ft_ref : nat; ft_other : nat }.
Record feet := { ft_cfg : feet_cfg; ft_lower : R; ft_shared : R -> env; ft_buffer : mat }.

(** FeetLateralDistanceConstraint.cpp:72-127: the buffers are zero, m_lowerBound(0) = 0.1 and then m_lowerBound.zero(). *)
Definition feet_ctor (c : feet_cfg) (shared : R -> env) : feet := {| ft_cfg := c; ft_lower := 0; ft_shared := shared; ft_buffer := fun _ _ => 0 |}.
(** FeetLateralDistanceConstraint.cpp:140-148 setMinimumDistance. *)
Definition feet_set_minimum (s : feet) (d : R) : feet * bool :=
  if Rlt_dec d 0 then (s, false)
  else ({| ft_cfg := ft_cfg s; ft_lower := d; ft_shared := ft_shared s; ft_buffer := ft_buffer s |}, true).
(** The state of another time does not change. *)
Definition at_time (g : R -> env) (t : R) (rho : env) : R -> env := fun t' => if Req_EM_T t' t then rho else g t'.
Definition feet_set_shared (s : feet) (g : R -> env) : feet :=
  {| ft_cfg := ft_cfg s; ft_lower := ft_lower s; ft_shared := g; ft_buffer := ft_buffer s |}.

Section Feet.
Variable r : robot.
Variable dofs : nat.
Variable up : nat -> nat -> option (nat * nat).
Variable base : nat.
Variable bt : formula.
Variable bt_dep : nat -> bool.
Variable rel : vec -> nat -> nat -> pose.
Variable jac : vec -> nat -> nat -> nat -> v6.
Variable fvel : env -> nat -> v6.
Variable quat : m3 -> vec.
Notation Meaning := (meaning (vdim dofs) urows (ucols dofs) (ueval r dofs up base bt rel jac fvel quat)).

(** FeetLateralDistanceConstraint.cpp:44-51 updateRobotState: the current state of the shared computations with the
    joints of the argument. *)
Definition feet_state (s : feet) (t : R) (x : vec) : env := env_set (ft_shared s t) v_s (part x (ft_joints (ft_cfg s)) dofs).
Definition feet_update (s : feet) (t : R) (x : vec) : feet := feet_set_shared s (at_time (ft_shared s) t (feet_state s t x)).

(** FeetLateralDistanceConstraint.cpp:150-166 evaluateConstraint.  updateDoneOnceConstraint stays false, so the value is
    always computed. *)
Definition feet_eval (s : feet) (t : R) (x u : vec) : feet * vec :=
  let s' := feet_update s t x in
  let c := ft_cfg s in
  (s', fun _ => vent (pos (rel (ft_shared s' t v_s) (ft_ref c) (ft_other c))) (ft_index c)).

(** getRelativeJacobian with MIXED_REPRESENTATION: the linear velocity of the other frame, with the orientation of the
    reference frame. *)
Definition mixed_linear (s : vec) (f g i : nat) : v3 := mv (rot (rel s f g)) (lin (jac s f g i)).
(** FeetLateralDistanceConstraint.cpp:168-197 constraintJacobianWRTState. *)
Definition feet_sjac (s : feet) (t : R) (x u : vec) (J : mat) : feet * mat :=
  let s' := feet_update s t x in
  let c := ft_cfg s in
  let B := set_block (ft_buffer s) 0 (ft_joints c) 1 dofs (fun _ j => vent (mixed_linear (ft_shared s' t v_s) (ft_ref c) (ft_other c) j) (ft_index c)) in
  ({| ft_cfg := c; ft_lower := ft_lower s; ft_shared := ft_shared s'; ft_buffer := B |}, B).
(** FeetLateralDistanceConstraint.cpp:199-203 constraintJacobianWRTControl: the buffer is never written. *)
Definition feet_cjac (s : feet) (t : R) (x u : vec) (J : mat) : feet * mat := (s, fun _ _ => 0).

(** FeetLateralDistanceConstraint.cpp:120-124: asExpression, jointsDerivative, columnsHessian. *)
Definition feet_expression (c : feet_cfg) : formula := FRow (relpos (ft_ref c) (ft_other c)) (ft_index c).
Definition feet_dcol := dcol dofs (deep r dofs up base bt bt_dep).
Definition feet_column (c : feet_cfg) (i : nat) : option formula :=
  match feet_dcol (feet_expression c) 0 v_s with None => None | Some D => feet_dcol D i v_s end.
Definition value_of (rho : env) (o : option formula) : mat := match o with Some F => Meaning rho F | None => fun _ _ => 0 end.
(** FeetLateralDistanceConstraint.cpp:227-257 constraintSecondPartialDerivativeWRTState.  expressionsServer->
    updateRobotState(time) copies the state of the shared computations (ExpressionsServer.cpp:151-171). *)
Definition feet_shess (s : feet) (t : R) (x u lambda : vec) (H : mat) : feet * mat :=
  let s' := feet_update s t x in
  let c := ft_cfg s in
  let rho := ft_shared s' t in
  (s', fold_left (fun H i => set_block H (ft_joints c) (ft_joints c + i) dofs 1 (fun a _ => value_of rho (feet_column c i) 0%nat a * lambda 0%nat))
                 (seq 0 dofs) H).
(** FeetLateralDistanceConstraint.cpp:259-275: the other two return true and write nothing. *)
Definition feet_class : constraint_class feet :=
  {| c_eval := feet_eval; c_sjac := feet_sjac; c_cjac := feet_cjac; c_shess := feet_shess; c_chess := noop_hess; c_mhess := noop_hess |}.
(** FeetLateralDistanceConstraint.cpp:59-71 setSparsity. *)
Definition feet_patterns (s : feet) : patterns :=
  let o := ft_joints (ft_cfg s) in
  {| p_sjac := dense_block 0 o 1 dofs; p_cjac := []; p_shess := dense_block o o dofs dofs; p_chess := []; p_mhess := [] |}.
(** The setter, and the other users of the shared computations. *)
Inductive feet_other : feet -> feet -> Prop :=
| feet_other_min s d : feet_other s (fst (feet_set_minimum s d))
| feet_other_shared s g : feet_other s (feet_set_shared s g).
End Feet.
