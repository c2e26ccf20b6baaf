(** Model of src/private/DynamicalConstraints.cpp (the planner's dynamical system).

    Simplifications: the offsets of the ranges are those the labellers give
    (checkFootVariables, 60-97, and the constructor, 376-404, look them up; Layout.v
    models the lookups); asserts are not represented; [timedSharedKinDyn->get(time)]
    and [sharedKinDyn->updateRobotState] (KinDynCache.v, Timely.v) do not influence the values computed
    here, apart from the state the expression server evaluates its expressions
    in, which is the robot state just set (ServerModel.v): the evaluated levi
    expressions are the section variables [levi_hess], [levi_cols], functions of that
    quaternion and linear velocity.  iDynTree's [Rotation::fromQuaternion] (external) is
    I + 2 s skew(r) + 2 skew(r)^2. *)
From Coq Require Import Reals List Arith Bool.
From Verif Require Import Spec SpecQuaternion Smoothing Quaternion ConstraintsModel CostsModel SpecDynamics.
Import ListNotations.
Local Open Scope R_scope.

(** Members fixed by the constructor, 19-58 and 323-417. *)
Record dy_cfg := {
  dy_L : dyn_layout;
  dy_mass : R;      (* totalMass *)
  dy_diss : R;      (* normalForceDissipation *)
  dy_xy : smoothing; (* activationXY (tanh) *)
  dy_z : smoothing   (* normalForceActivation (sech) *)
}.
(** Constructor, 343-350: the mass is the sum of the masses of the links. *)
Definition dy_totalMass (link_masses : list R) : R := fold_left Rplus link_masses 0.
(** Constructor, 353-354: gravityVector. *)
Definition dy_gravity : vec := fun a => match a with 2%nat => - (981 / 100) | _ => 0 end.

(** Mutable members. *)
Record dy_ws := {
  y_x : vec; y_u : vec;        (* stateVariables, controlVariables *)
  y_dyn : vec;                 (* dynamics *)
  y_lam : vec;                 (* lambda *)
  y_com : vec;                 (* comPosition *)
  y_rot : mat;                 (* baseRotation *)
  y_q : vec; y_qn : vec; y_qv : vec;  (* baseQuaternion, ...Normalized, ...Velocity *)
  y_lin : vec; y_sdot : vec    (* robotState.base_linearVelocity, robotState.s_dot *)
}.
Definition dy := (dy_cfg * dy_ws)%type.
(** Constructor: 338-339 zero [dynamics] and [lambda]; the rest starts arbitrary. *)
Definition dy_ctor (c : dy_cfg) (w : dy_ws) : dy :=
  (c, {| y_x := y_x w; y_u := y_u w; y_dyn := vzero; y_lam := vzero; y_com := y_com w; y_rot := y_rot w;
         y_q := y_q w; y_qn := y_qn w; y_qv := y_qv w; y_lin := y_lin w; y_sdot := y_sdot w |}).

(** iDynTree::Rotation::fromQuaternion (external). *)
Definition rotation_of (q : vec) : mat := fun i j =>
  identity i j + 2 * q 0%nat * skew (tail3 q) i j + 2 * mat3mul (skew (tail3 q)) (skew (tail3 q)) i j.

(** First lines of every method (e.g. 430-435) and updateRobotState, 228-254. *)
Definition dy_update (c : dy_cfg) (w : dy_ws) (x u : vec) : dy_ws :=
  let L := dy_L c in
  let q := seg x (dl_quat L) in
  let qn := NormalizedQuaternion q in
  {| y_x := x; y_u := u; y_dyn := y_dyn w; y_lam := y_lam w;
     y_com := seg x (dl_com L); y_rot := rotation_of qn; y_q := q; y_qn := qn;
     y_qv := seg u (dl_qd L); y_lin := seg u (dl_lin L); y_sdot := seg u (dl_jv L) |}.
Definition dy_set_lambda (w : dy_ws) (l : vec) : dy_ws :=
  {| y_x := y_x w; y_u := y_u w; y_dyn := y_dyn w; y_lam := l; y_com := y_com w; y_rot := y_rot w;
     y_q := y_q w; y_qn := y_qn w; y_qv := y_qv w; y_lin := y_lin w; y_sdot := y_sdot w |}.
Definition dy_set_dyn (w : dy_ws) (d : vec) : dy_ws :=
  {| y_x := y_x w; y_u := y_u w; y_dyn := d; y_lam := y_lam w; y_com := y_com w; y_rot := y_rot w;
     y_q := y_q w; y_qn := y_qn w; y_qv := y_qv w; y_lin := y_lin w; y_sdot := y_sdot w |}.

(** [segment += f] *)
Definition add_seg (g : vec) (o n : nat) (f : nat -> R) : vec := set_seg g o n (fun a => g (o + a)%nat + f a).
(** [block += f] and [block *= v] *)
Definition add_block (H : mat) (r c nr nc : nat) (f : nat -> nat -> R) : mat :=
  set_block H r c nr nc (fun a b => H (r + a)%nat (c + b)%nat + f a b).
Definition scale_block (H : mat) (r c nr nc : nat) (v : R) : mat :=
  set_block H r c nr nc (fun a b => H (r + a)%nat (c + b)%nat * v).

(** computeFootRelatedDynamics, 100-126 (one iteration; the loop is a fold). *)
Definition foot_dynamics (c : dy_cfg) (w : dy_ws) (d : vec) (p : contact_point) : vec :=
  let x := y_x w in let u := y_u w in let mom := dl_mom (dy_L c) in
  let pz := x (cp_p p + 2)%nat in
  let deltaZ := hs_eval (dy_z c) pz in
  let fz := x (cp_f p + 2)%nat in
  let uz := u (cp_fc p + 2)%nat in
  let d := set_seg d (cp_f p) 2 (fun a => u (cp_fc p + a)%nat) in
  let d := vset d (cp_f p + 2) (deltaZ * uz + dy_diss c * (deltaZ - 1) * fz) in
  let deltaXY := ht_eval (dy_xy c) (x (cp_p p + 2)%nat) in
  let d := set_seg d (cp_p p) 2 (fun a => deltaXY * u (cp_vc p + a)%nat) in
  let d := vset d (cp_p p + 2) (u (cp_vc p + 2)%nat) in
  let d := add_seg d mom 3 (fun a => x (cp_f p + a)%nat) in
  let distance : vec := fun a => x (cp_p p + a)%nat - y_com w a in
  let appliedForce : vec := fun a => x (cp_f p + a)%nat in
  add_seg d (mom + 3) 3 (cross3 distance appliedForce).

(** dynamics, 428-458 *)
Definition dy_dynamics (s : dy) (t : R) (x u : vec) : dy * vec :=
  let (c, w) := s in
  let L := dy_L c in
  let w := dy_update c w x u in
  let d := set_seg (y_dyn w) (dl_mom L) 6 (fun a => dy_mass c * dy_gravity a) in
  let d := fold_left (foot_dynamics c w) (dl_left L) d in
  let d := fold_left (foot_dynamics c w) (dl_right L) d in
  let d := set_seg d (dl_com L) 3 (fun a => y_x w (dl_mom L + a)%nat / dy_mass c) in
  let d := set_seg d (dl_base L) 3 (mulv 3 (y_rot w) (y_lin w)) in
  let d := set_seg d (dl_quat L) 4 (y_qv w) in
  let d := set_seg d (dl_jnt L) (dl_dof L) (y_sdot w) in
  ((c, dy_set_dyn w d), d).

(** computeFootRelatedStateJacobian, 128-159 (one iteration) *)
Definition foot_sjac (c : dy_cfg) (w : dy_ws) (J : mat) (p : contact_point) : mat :=
  let x := y_x w in let u := y_u w in let L := dy_L c in
  let deltaXYDerivative := ht_deriv (dy_xy c) (x (cp_p p + 2)%nat) in
  let distance : vec := fun a => x (cp_p p + a)%nat - y_com w a in
  let appliedForce : vec := fun a => x (cp_f p + a)%nat in
  let J := set_block J (dl_mom L) (cp_f p) 3 3 identity in
  let J := set_block J (dl_mom L + 3) (cp_f p) 3 3 (skew distance) in
  let J := set_block J (dl_mom L + 3) (cp_p p) 3 3 (fun a b => - skew appliedForce a b) in
  let J := add_block J (dl_mom L + 3) (dl_com L) 3 3 (skew appliedForce) in
  let pz := x (cp_p p + 2)%nat in
  let deltaZDerivative := hs_deriv (dy_z c) pz in
  let deltaZ := hs_eval (dy_z c) pz in
  let fz := x (cp_f p + 2)%nat in
  let uz := u (cp_fc p + 2)%nat in
  let J := mset J (cp_f p + 2) (cp_p p + 2) (deltaZDerivative * (uz + dy_diss c * fz)) in
  let J := mset J (cp_f p + 2) (cp_f p + 2) (dy_diss c * (deltaZ - 1)) in
  set_block J (cp_p p) (cp_p p + 2) 2 1 (fun a _ => deltaXYDerivative * u (cp_vc p + a)%nat).

(** dynamicsStateFirstDerivative, 460-494 *)
Definition matmul44 (A B : mat) : mat := fun i j =>
  A i 0%nat * B 0%nat j + A i 1%nat * B 1%nat j + A i 2%nat * B 2%nat j + A i 3%nat * B 3%nat j.
Definition dy_sjac (s : dy) (t : R) (x u : vec) (J : mat) : dy * mat :=
  let (c, w) := s in
  let L := dy_L c in
  let w := dy_update c w x u in
  let J := set_block J (dl_mom L + 3) (dl_com L) 3 3 (fun _ _ => 0) in
  let J := fold_left (foot_sjac c w) (dl_left L) J in
  let J := fold_left (foot_sjac c w) (dl_right L) J in
  let J := set_block J (dl_com L) (dl_mom L) 3 3 identity in
  let J := scale_block J (dl_com L) (dl_mom L) 3 3 (1 / dy_mass c) in
  let J := set_block J (dl_base L) (dl_quat L) 3 4
             (matmul44 (RotatedVectorQuaternionJacobian (y_lin w) (y_qn w)) (NormalizedQuaternionDerivative (y_q w))) in
  ((c, w), J).

(** computeFootRelatedControlJacobian, 161-173 (one iteration) *)
Definition foot_cjac (c : dy_cfg) (w : dy_ws) (J : mat) (p : contact_point) : mat :=
  let x := y_x w in
  let deltaXY := ht_eval (dy_xy c) (x (cp_p p + 2)%nat) in
  let pz := x (cp_p p + 2)%nat in
  let deltaZ := hs_eval (dy_z c) pz in
  let J := set_block J (cp_f p) (cp_fc p) 2 2 identity in
  let J := mset J (cp_f p + 2) (cp_fc p + 2) deltaZ in
  let J := set_block J (cp_p p) (cp_vc p) 3 3 identity in
  scale_block J (cp_p p) (cp_vc p) 2 2 deltaXY.
(** dynamicsControlFirstDerivative, 496-521 *)
Definition dy_cjac (s : dy) (t : R) (x u : vec) (J : mat) : dy * mat :=
  let (c, w) := s in
  let L := dy_L c in
  let w := dy_update c w x u in
  let J := fold_left (foot_cjac c w) (dl_left L) J in
  let J := fold_left (foot_cjac c w) (dl_right L) J in
  let J := set_block J (dl_base L) (dl_lin L) 3 3 (y_rot w) in
  let J := set_block J (dl_quat L) (dl_qd L) 4 4 identity in
  let J := set_block J (dl_jnt L) (dl_jv L) (dl_dof L) (dl_dof L) identity in
  ((c, w), J).

(** [skewForce.getColumnDerivative(j, force)], 181: the derivative of column [j] of
    the (linear) skew operator with respect to the force. *)
Definition skew_column_derivative (j : nat) : mat := fun a b => skew (identity b) a j.

(** computeFootRelatedStateHessian, 175-210: inner loop over j, 180-191 *)
Definition foot_shess_j (c : dy_cfg) (w : dy_ws) (p : contact_point) (H : mat) (j : nat) : mat :=
  let L := dy_L c in
  let derivative := skew_column_derivative j in
  let l : vec := fun a => y_lam w (dl_mom L + 3 + a)%nat in
  let forceHessian : vec := fun b => l 0%nat * derivative 0%nat b + l 1%nat * derivative 1%nat b + l 2%nat * derivative 2%nat b in
  let H := set_block H (dl_com L + j) (cp_f p) 1 3 (fun _ b => forceHessian b) in
  let H := set_block H (cp_f p) (dl_com L + j) 3 1 (fun b _ => forceHessian b) in
  let H := set_block H (cp_p p + j) (cp_f p) 1 3 (fun _ b => - forceHessian b) in
  set_block H (cp_f p) (cp_p p + j) 3 1 (fun b _ => - forceHessian b).
(** 178-209 (one iteration) *)
Definition foot_shess (c : dy_cfg) (w : dy_ws) (H : mat) (p : contact_point) : mat :=
  let x := y_x w in let u := y_u w in let l := y_lam w in
  let H := fold_left (foot_shess_j c w p) (seq 0 3) H in
  let pz := x (cp_p p + 2)%nat in
  let deltaXYDoubleDerivative := ht_dderiv (dy_xy c) pz in
  let deltaZDoubleDerivative := hs_dderiv (dy_z c) pz in
  let deltaZDerivative := hs_deriv (dy_z c) pz in
  let fz := x (cp_f p + 2)%nat in
  let uz := u (cp_fc p + 2)%nat in
  let H := mset H (cp_p p + 2) (cp_p p + 2)
    (deltaXYDoubleDerivative * (l (cp_p p + 0)%nat * u (cp_vc p + 0)%nat + l (cp_p p + 1)%nat * u (cp_vc p + 1)%nat) +
     deltaZDoubleDerivative * l (cp_f p + 2)%nat * (uz + dy_diss c * fz)) in
  let H := mset H (cp_p p + 2) (cp_f p + 2)
    (H (cp_p p + 2)%nat (cp_f p + 2)%nat + deltaZDerivative * dy_diss c * l (cp_f p + 2)%nat) in
  mset H (cp_f p + 2) (cp_p p + 2) (H (cp_p p + 2)%nat (cp_f p + 2)%nat).

(** computeFootRelatedMixedHessian, 212-226 (one iteration) *)
Definition foot_mhess (c : dy_cfg) (w : dy_ws) (H : mat) (p : contact_point) : mat :=
  let x := y_x w in let l := y_lam w in
  let pz := x (cp_p p + 2)%nat in
  let deltaXYDerivative := ht_deriv (dy_xy c) pz in
  let deltaZDerivative := hs_deriv (dy_z c) pz in
  let H := mset H (cp_p p + 2) (cp_vc p) (deltaXYDerivative * l (cp_p p + 0)%nat) in
  let H := mset H (cp_p p + 2) (cp_vc p + 1) (deltaXYDerivative * l (cp_p p + 1)%nat) in
  mset H (cp_p p + 2) (cp_fc p + 2) (deltaZDerivative * l (cp_f p + 2)%nat).

Section Levi.
  (** basePositionDerivativeHessian[i].evaluate() and
      baseRotation.getColumnDerivative(i, quaternion).evaluate(). *)
  Variable levi_hess : vec -> vec -> nat -> mat.
  Variable levi_cols : vec -> nat -> mat.

  (** dynamicsSecondPartialDerivativeWRTState, 535-562 *)
  Definition dy_shess (s : dy) (t : R) (x u l : vec) (H : mat) : dy * mat :=
    let (c, w) := s in
    let L := dy_L c in
    let w := dy_update c (dy_set_lambda w l) x u in
    let H := fold_left (fun H i =>
               set_block H (dl_quat L + i) (dl_quat L) 1 4
                 (fun _ b => sumn 3 (fun a => y_lam w (dl_base L + a)%nat * levi_hess (y_q w) (y_lin w) i a b)))
               (seq 0 4) H in
    let H := fold_left (foot_shess c w) (dl_left L) H in
    let H := fold_left (foot_shess c w) (dl_right L) H in
    ((c, w), H).
  (** dynamicsSecondPartialDerivativeWRTControl, 564-567 *)
  Definition dy_chess (s : dy) (t : R) (x u l : vec) (H : mat) : dy * mat := (s, H).
  (** dynamicsSecondPartialDerivativeWRTStateControl, 569-594 *)
  Definition dy_mhess (s : dy) (t : R) (x u l : vec) (H : mat) : dy * mat :=
    let (c, w) := s in
    let L := dy_L c in
    let w := dy_update c (dy_set_lambda w l) x u in
    let H := fold_left (fun H i =>
               set_block H (dl_quat L) (dl_lin L + i) 4 1
                 (fun b _ => sumn 3 (fun a => levi_cols (y_q w) i a b * y_lam w (dl_base L + a)%nat)))
               (seq 0 3) H in
    let H := fold_left (foot_mhess c w) (dl_left L) H in
    let H := fold_left (foot_mhess c w) (dl_right L) H in
    ((c, w), H).

  Definition dy_class : constraint_class dy :=
    {| c_eval := dy_dynamics; c_sjac := dy_sjac; c_cjac := dy_cjac;
       c_shess := dy_shess; c_chess := dy_chess; c_mhess := dy_mhess |}.
End Levi.

(** setSparsity and setFootRelated*Sparsity, 256-319 *)
Definition dy_patterns (s : dy) : patterns :=
  let L := dy_L (fst s) in
  let pts := dl_points L in
  {| p_sjac := flat_map (fun p =>
         identity_block (dl_mom L) (cp_f p) 3 ++ dense_block (dl_mom L + 3) (cp_f p) 3 3 ++
         dense_block (dl_mom L + 3) (cp_p p) 3 3 ++ dense_block (cp_p p) (cp_p p + 2) 2 1 ++
         [(cp_f p + 2, cp_p p + 2)%nat]) pts ++
       dense_block (dl_mom L + 3) (dl_com L) 3 3 ++ identity_block (dl_com L) (dl_mom L) 3 ++
       dense_block (dl_base L) (dl_quat L) 3 4 ++ dense_block (dl_quat L) (dl_quat L) 4 4;
     p_cjac := flat_map (fun p =>
         identity_block (cp_f p) (cp_fc p) 3 ++ identity_block (cp_p p) (cp_vc p) 3) pts ++
       dense_block (dl_base L) (dl_lin L) 3 3 ++ identity_block (dl_quat L) (dl_qd L) 4 ++
       identity_block (dl_jnt L) (dl_jv L) (dl_dof L);
     p_shess := flat_map (fun p =>
         dense_block (dl_com L) (cp_f p) 3 3 ++ dense_block (cp_f p) (dl_com L) 3 3 ++
         dense_block (cp_p p) (cp_f p) 3 3 ++ dense_block (cp_f p) (cp_p p) 3 3 ++
         [(cp_p p + 2, cp_p p + 2)%nat]) pts ++
       dense_block (dl_quat L) (dl_quat L) 4 4;
     p_chess := [];
     p_mhess := flat_map (fun p =>
         [(cp_p p + 2, cp_vc p)%nat; (cp_p p + 2, cp_vc p + 1)%nat; (cp_p p + 2, cp_fc p + 2)%nat]) pts ++
       dense_block (dl_quat L) (dl_lin L) 4 3 |}.
