(** Link between the model's configurations and the specification: vocabulary
    used in the statements about contact constraints. *)
From Coq Require Import Reals List Arith.
From Verif Require Import Spec SpecConstraints Smoothing ConstraintsModel.
Local Open Scope R_scope.

(** The constant an activation is disabled to, if it is. *)
Definition disabled_of (s : smoothing) : option R :=
  if sm_disabled s then Some (sm_value s) else None.

(** Two 3-entry ranges do not overlap. *)
Definition disjoint3 (a b : nat) : Prop := (a + 3 <= b)%nat \/ (b + 3 <= a)%nat.

(** Documented value of the constraint for the configuration held by the object. *)
Definition cfc_value (s : cfc) (t : R) (x u : vec) : vec :=
    let c := fst s in
    force_control_value (smooth_bump (sm_K (cfc_act c)) (disabled_of (cfc_act c)))
      (cfc_max c) (cfc_diss c) (cfc_pos c + 2) (cfc_force c + 2) (cfc_ctrl c + 2) x u.

(** Documented value of the constraint for the configuration held by the object. *)
Definition fr_value (s : fr) (t : R) (x u : vec) : vec :=
    friction_value (fr_mu (fst s)) (fr_force (fst s)) (fr_force (fst s) + 1) (fr_force (fst s) + 2) x.

(** Documented value of the constraint for the configuration held by the object. *)
Definition nv_value (s : nv) (t : R) (x u : vec) : vec :=
    let c := fst s in
    normal_velocity_value (smooth_step (sm_K (nv_act c)) (disabled_of (nv_act c))) (nv_max c)
       (nv_pos c + 2) (nv_vel c + 2) x u.

(** Documented value of the constraint for the configuration held by the object. *)
Definition pv_value (s : pv) (t : R) (x u : vec) : vec :=
    let c := fst s in
    planar_velocity_value (smooth_step (sm_K (pv_act c)) (disabled_of (pv_act c))) (pv_mx c) (pv_my c)
       (pv_pos c + 2) (pv_vel c) (pv_vel c + 1) x u.

(** Documented value of the constraint for the configuration held by the object. *)
Definition cc_value (s : cc) (t : R) (x u : vec) : vec :=
    complementarity_value (cc_pos (fst s) + 2) (cc_force (fst s) + 2) x.

(** Documented value of the constraint for the configuration held by the object. *)
Definition cp_value (s : cp) (t : R) (x u : vec) : vec :=
    planar_complementarity_value (cp_force (fst s) + 2) (cp_vel (fst s)) (cp_vel (fst s) + 1) x u.

(** Documented value of the constraint for the configuration held by the object. *)
Definition dc_value (s : dc) (t : R) (x u : vec) : vec :=
    let c := fst s in
    dynamical_complementarity_value (dc_gain c) (dc_pos c + 2) (dc_force c + 2) (dc_vel c + 2) (dc_fctl c + 2) x u.

(** Documented value of the constraint for the configuration held by the object. *)
Definition qn_value (s : qn) (t : R) (x u : vec) : vec := quaternion_norm_value (qn_off (fst s)) x.

(** A constraint vector [c] of [m] rows respects the bounds of the object. *)
Definition below (m : nat) (ub : option vec) (c : vec) : Prop :=
  match ub with None => True | Some b => forall i, (i < m)%nat -> c i <= b i end.
Definition above (m : nat) (lb : option vec) (c : vec) : Prop :=
  match lb with None => True | Some b => forall i, (i < m)%nat -> b i <= c i end.

(** Witnesses used for the planar velocity counterexamples. *)
Definition pv_wit (mx my : R) : pv_cfg :=
  {| pv_act := smoothing_ctor; pv_mx := mx; pv_my := my; pv_pos := 3; pv_force := 0; pv_vel := 0 |}.
Definition pv_x1 : vec := fun _ => 1.
