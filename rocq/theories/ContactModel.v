(** Model of ContactPositionConsistencyConstraint.cpp.

    Simplifications: as in FeetModel.v; the ranges of the state are given by their offsets; the calls whose results are not
    used (the Jacobian of the foot, its quaternion) are left out; iDynTree's world transform of the foot is the pose of the
    base (with the normalised quaternion) times the transform from the foot to the base. *)
From Coq Require Import Reals List Arith Bool.
From Coquelicot Require Import Coquelicot.
From Verif Require Import Spec SpecRigid SpecBase SpecDerivatives SpecFeet ConstraintsModel CostsModel KinModel KinLib SymModel BaseModel FeetModel.
Import ListNotations.
Local Open Scope R_scope.

Record contact_cfg := { cn_pos : nat; cn_quat : nat; cn_joints : nat; cn_point : nat; cn_foot : nat; cn_in_foot : v3 }.
Record contact := { cn_cfg : contact_cfg; cn_lower : R; cn_upper : R; cn_shared : R -> env; cn_buffer : mat }.
(** ContactPositionConsistencyConstraint.cpp:142-210: buffers and bounds are zero. *)
Definition contact_ctor (c : contact_cfg) (shared : R -> env) : contact :=
  {| cn_cfg := c; cn_lower := 0; cn_upper := 0; cn_shared := shared; cn_buffer := fun _ _ => 0 |}.
(** ContactPositionConsistencyConstraint.cpp:215-221 setEqualityTolerance: all the entries of the bounds. *)
Definition contact_set_tolerance (s : contact) (tol : R) : contact :=
  {| cn_cfg := cn_cfg s; cn_lower := - tol / 2; cn_upper := tol / 2; cn_shared := cn_shared s; cn_buffer := cn_buffer s |}.
Definition contact_set_shared (s : contact) (g : R -> env) : contact :=
  {| cn_cfg := cn_cfg s; cn_lower := cn_lower s; cn_upper := cn_upper s; cn_shared := g; cn_buffer := cn_buffer s |}.

Section Contact.
Variable r : robot.
Variable dofs : nat.
Variable up : nat -> nat -> option (nat * nat).
Variable base : nat.
Variable bt : formula.
Variable bt_dep : nat -> bool.
Variable rel : vec -> nat -> nat -> pose.
Variable jac : vec -> nat -> nat -> nat -> v6.
Variable fvel : env -> nat -> v6.
Variable quat : m3 -> vec.
Notation Value := (value_of r dofs up base bt rel jac fvel quat).

(** ContactPositionConsistencyConstraint.cpp:70-90 updateVariables. *)
Definition contact_state (c : contact_cfg) (rho : env) (x : vec) : env :=
  env_set (env_set (env_set rho v_q (part x (cn_quat c) 4)) v_p (part x (cn_pos c) 3)) v_s (part x (cn_joints c) dofs).
Definition contact_update (s : contact) (t : R) (x : vec) : contact :=
  contact_set_shared s (at_time (cn_shared s) t (contact_state (cn_cfg s) (cn_shared s t) x)).
(** getWorldTransform. *)
Definition world_transform (rho : env) (f : nat) : pose :=
  pmul (base_pose (rho v_q) (V3 (rho v_p 0%nat) (rho v_p 1%nat) (rho v_p 2%nat))) (rel (rho v_s) base f).
(** ContactPositionConsistencyConstraint.cpp:223-240 evaluateConstraint. *)
Definition contact_eval (s : contact) (t : R) (x u : vec) : contact * vec :=
  let s' := contact_update s t x in
  let c := cn_cfg s in
  (s', fun i => vent (papply (world_transform (cn_shared s' t) (cn_foot c)) (cn_in_foot c)) i - x (cn_point c + i)%nat).

(** TransformExpression.cpp:53-56, 64-67; ContactPositionConsistencyConstraint.cpp:182-190 asExpression. *)
Definition contact_expression (c : contact_cfg) : formula :=
  FAdd (FAdd (FVar v_p) (FMul base_rotation (relpos base (cn_foot c))))
       (FMul (FMul base_rotation (relrot base (cn_foot c))) (FConst 3 1 (fun i _ => vent (cn_in_foot c) i))).
(** ContactPositionConsistencyConstraint.cpp:190-208. *)
Definition contact_dcol := dcol dofs (deep r dofs up base bt bt_dep).
Definition bind_col (o : option formula) (i v : nat) : option formula := match o with None => None | Some D => contact_dcol D i v end.
Definition quaternion_derivative (c : contact_cfg) := contact_dcol (contact_expression c) 0 v_q.
Definition joints_derivative (c : contact_cfg) := contact_dcol (contact_expression c) 0 v_s.

(** ContactPositionConsistencyConstraint.cpp:242-307 constraintJacobianWRTState. *)
Definition contact_sjac (s : contact) (t : R) (x u : vec) (J : mat) : contact * mat :=
  let s' := contact_update s t x in
  let c := cn_cfg s in
  let rho := cn_shared s' t in
  let B := cn_buffer s in
  let B := set_block B 0 (cn_pos c) 3 3 (scaled_identity 1) in
  let B := set_block B 0 (cn_quat c) 3 4 (Value rho (quaternion_derivative c)) in
  let B := set_block B 0 (cn_joints c) 3 dofs (Value rho (joints_derivative c)) in
  let B := set_block B 0 (cn_point c) 3 3 (scaled_identity (-1)) in
  ({| cn_cfg := c; cn_lower := cn_lower s; cn_upper := cn_upper s; cn_shared := cn_shared s'; cn_buffer := B |}, B).
(** ContactPositionConsistencyConstraint.cpp:309-313 constraintJacobianWRTControl. *)
Definition contact_cjac (s : contact) (t : R) (x u : vec) (J : mat) : contact * mat := (s, fun _ _ => 0).
(** Column [j] of the transpose of D times lambda. *)
Definition times_lambda (rho : env) (D : option formula) (lambda : vec) (j : nat) : R := sumn 3 (fun a => Value rho D a j * lambda a).
(** ContactPositionConsistencyConstraint.cpp:337-383 constraintSecondPartialDerivativeWRTState. *)
Definition contact_shess (s : contact) (t : R) (x u lambda : vec) (H : mat) : contact * mat :=
  let s' := contact_update s t x in
  let c := cn_cfg s in
  let rho := cn_shared s' t in
  let H := fold_left (fun H i =>
      let H := set_block H (cn_quat c + i) (cn_quat c) 1 4 (fun _ j => times_lambda rho (bind_col (quaternion_derivative c) i v_q) lambda j) in
      let m := times_lambda rho (bind_col (quaternion_derivative c) i v_s) lambda in
      let H := set_block H (cn_quat c + i) (cn_joints c) 1 dofs (fun _ j => m j) in
      set_block H (cn_joints c) (cn_quat c + i) dofs 1 (fun j _ => m j)) (seq 0 4) H in
  (s', fold_left (fun H i => set_block H (cn_joints c) (cn_joints c + i) dofs 1
         (fun a _ => times_lambda rho (bind_col (joints_derivative c) i v_s) lambda a)) (seq 0 dofs) H).
(** ContactPositionConsistencyConstraint.cpp:385-400: the other two return true and write nothing. *)
Definition contact_class : constraint_class contact :=
  {| c_eval := contact_eval; c_sjac := contact_sjac; c_cjac := contact_cjac; c_shess := contact_shess; c_chess := noop_hess; c_mhess := noop_hess |}.
(** ContactPositionConsistencyConstraint.cpp:102-123 setSparsity. *)
Definition contact_patterns (s : contact) : patterns :=
  let c := cn_cfg s in
  let q := cn_quat c in
  let j := cn_joints c in
  {| p_sjac := identity_block 0 (cn_pos c) 3 ++ dense_block 0 q 3 4 ++ dense_block 0 j 3 dofs ++ identity_block 0 (cn_point c) 3;
     p_cjac := [];
     p_shess := dense_block q q 4 4 ++ dense_block q j 4 dofs ++ dense_block j q dofs 4 ++ dense_block j j dofs dofs;
     p_chess := []; p_mhess := [] |}.
(** The setter, and the other users of the shared computations. *)
Inductive contact_other : contact -> contact -> Prop :=
| contact_other_tolerance s tol : contact_other s (contact_set_tolerance s tol)
| contact_other_shared s g : contact_other s (contact_set_shared s g).
End Contact.
