(** Properties C06, C07, C11-C17: activation functions and contact constraints.
    [reach C other s0] ranges over every object state obtained from the freshly
    constructed object [s0] by any sequence of calls. *)
From Coq Require Import Reals List Arith Lia Lra.
From Coquelicot Require Import Coquelicot.
From Verif Require Import Spec SpecConstraints Smoothing ConstraintsModel ConstraintStatements
  SmoothingProofs ConstraintProofs ConstraintSemantics.
Import ListNotations.
Local Open Scope R_scope.

(** ** C06: hyperbolic tangent *)
Theorem C06_tanh_activation : forall (s : smoothing) (z : R),
  ht_eval s z = smooth_step (sm_K s) (disabled_of s) z /\
  is_derive (ht_eval s) z (ht_deriv s z) /\
  is_derive (ht_deriv s) z (ht_dderiv s z).
Proof. exact (fun s z => conj (ht_eval_value s z) (conj (ht_deriv_ok s z) (ht_dderiv_ok s z))). Qed.

Theorem C06_tanh_range : forall K x y, -1 < tanh (K * x) < 1 /\ (0 < K -> x < y -> tanh (K * x) < tanh (K * y)).
Proof. exact (fun K x y => conj (tanh_bounds (K * x)) (fun HK Hxy => tanh_increasing _ _ (Rmult_lt_compat_l K x y HK Hxy))). Qed.

(** Scaling and disabling act as documented on the reported value. *)
Theorem C06_scaling_and_disable : forall s K v z,
  ht_eval (smoothing_disable s v) z = v /\ hs_eval (smoothing_disable s v) z = v /\
  (sm_disabled s = false -> ht_eval (smoothing_setScaling s K) z = tanh (K * z)) /\
  (sm_disabled s = false -> hs_eval (smoothing_setScaling s K) z = 1 / cosh (K * z)) /\
  ht_eval smoothing_ctor z = tanh z /\ hs_eval smoothing_ctor z = 1 / cosh z.
Proof.
  exact scaling_and_disable.
Qed.

(** ** C07: hyperbolic secant *)
Theorem C07_sech_activation : forall (s : smoothing) (z : R),
  hs_eval s z = smooth_bump (sm_K s) (disabled_of s) z /\
  is_derive (hs_eval s) z (hs_deriv s z) /\
  is_derive (hs_deriv s) z (hs_dderiv s z).
Proof. exact (fun s z => conj (hs_eval_value s z) (conj (hs_deriv_ok s z) (hs_dderiv_ok s z))). Qed.

Theorem C07_sech_range : forall z, 0 < / cosh z <= 1 /\ (/ cosh z = 1 -> z = 0).
Proof. exact (fun z => conj (sech_bounds z) (sech_max z)). Qed.

(** ** C11: normal force control *)
Theorem C11_force_control_exact : forall c x0 u0, disjoint3 (cfc_pos c) (cfc_force c) ->
  constraint_exact cfc_class (reach cfc_class no_other (cfc_ctor c x0 u0)) 1 cfc_value cfc_patterns.
Proof. exact cfc_exact. Qed.

Theorem C11_force_control_feasible : forall c w t x u,
  below 1 (cfc_upper (c, w)) (snd (cfc_eval (c, w) t x u)) <->
  let d := smooth_bump (sm_K (cfc_act c)) (disabled_of (cfc_act c)) (x (cfc_pos c + 2)%nat) in
  u (cfc_ctrl c + 2)%nat <= d * cfc_max c - (1 - d) * cfc_diss c * x (cfc_force c + 2)%nat.
Proof. exact cfc_feasible. Qed.

Theorem C11_patterns_fit : forall s nx nu,
  (cfc_pos (fst s) + 3 <= nx)%nat -> (cfc_force (fst s) + 3 <= nx)%nat -> (cfc_ctrl (fst s) + 3 <= nu)%nat ->
  pattern_fits 1 nx (p_sjac (cfc_patterns s)) /\ pattern_fits 1 nu (p_cjac (cfc_patterns s)) /\
  pattern_fits nx nx (p_shess (cfc_patterns s)).
Proof. exact cfc_fits. Qed.

Example C11_hypotheses_met : exists c, disjoint3 (cfc_pos c) (cfc_force c) /\ cfc_max c = 10.
Proof.
  exists {| cfc_act := smoothing_ctor; cfc_max := 10; cfc_diss := 5; cfc_pos := 3; cfc_force := 0; cfc_ctrl := 3 |}.
  unfold disjoint3; simpl; split; [right; lia | reflexivity].
Qed.

(** ** C12: friction *)
Theorem C12_friction_exact : forall o x0 u0,
  constraint_exact fr_class (reach fr_class fr_other (fr_ctor o x0 u0)) 1 fr_value fr_patterns.
Proof. exact fr_exact. Qed.

Theorem C12_friction_feasible : forall o x0 u0 s t x u,
  reach fr_class fr_other (fr_ctor o x0 u0) s ->
  (below 1 (fr_upper s) (snd (fr_eval s t x u)) <->
   sqrt ((x o)^2 + (x (o+1)%nat)^2) <= fr_mu (fst s) * Rabs (x (o+2)%nat)).
Proof.
  exact (fun o x0 u0 s t x u R => match fr_inv o x0 u0 s R with conj e h =>
    eq_ind (fr_force (fst s)) (fun o => below 1 (fr_upper s) (snd (fr_eval s t x u)) <->
      sqrt ((x o)^2 + (x (o+1)%nat)^2) <= fr_mu (fst s) * Rabs (x (o+2)%nat)) (fr_feasible s t x u h) o e end).
Qed.

Theorem C12_set_friction : forall s mu,
  (mu <= 0 -> fr_setFrictionCoefficient s mu = (s, false)) /\
  (0 < mu -> snd (fr_setFrictionCoefficient s mu) = true /\
             fr_mu (fst (fst (fr_setFrictionCoefficient s mu))) = mu /\
             fr_force (fst (fst (fr_setFrictionCoefficient s mu))) = fr_force (fst s)).
Proof.
  intros s mu. unfold fr_setFrictionCoefficient. destruct (Rle_dec mu 0); simpl; split; intros; try lra; auto.
Qed.

(** ** C13: normal velocity *)
Theorem C13_normal_velocity_exact : forall c x0 u0,
  constraint_exact nv_class (reach nv_class no_other (nv_ctor c x0 u0)) 2 nv_value nv_patterns.
Proof. exact nv_exact. Qed.

Theorem C13_normal_velocity_feasible : forall c w t x u,
  above 2 (nv_lower (c, w)) (snd (nv_eval (c, w) t x u)) <->
  let d := smooth_step (sm_K (nv_act c)) (disabled_of (nv_act c)) (x (nv_pos c + 2)%nat) in
  - (d * nv_max c) <= u (nv_vel c + 2)%nat <= nv_max c.
Proof. exact nv_feasible. Qed.

Theorem C13_no_penetration_at_ground : forall c w t x u,
  sm_disabled (nv_act c) = false -> x (nv_pos c + 2)%nat = 0 ->
  above 2 (nv_lower (c, w)) (snd (nv_eval (c, w) t x u)) -> 0 <= u (nv_vel c + 2)%nat.
Proof. exact nv_ground. Qed.

(** ** C14: planar velocity.  The full property (constraint_exact) is false of the code. *)
Theorem C14_planar_velocity_exact_partial : forall c x0 u0,
  let ok := reach pv_class no_other (pv_ctor c x0 u0) in
  eval_correct pv_class ok 4 pv_value /\
  state_jacobian_exact pv_class ok 4 pv_value (fun s => p_sjac (pv_patterns s)) /\
  control_jacobian_exact pv_class ok 4 pv_value (fun s => p_cjac (pv_patterns s)) /\
  control_hessian_exact pv_class ok 4 pv_value (fun s => p_chess (pv_patterns s)) /\
  mixed_hessian_exact pv_class ok 4 pv_value (fun s => p_mhess (pv_patterns s)) /\
  methods_keep_value pv_class ok pv_value.
Proof. exact pv_exact_partial. Qed.

(** When the Hessian happens to be right. *)
Theorem C14_planar_velocity_hessian_when : forall c x0 u0 s,
  reach pv_class no_other (pv_ctor c x0 u0) s -> forall t x u l H,
    zero_outside (p_shess (pv_patterns s)) H ->
    w_pos (snd s) 2%nat = x (pv_pos c + 2)%nat ->
    l 1%nat * pv_mx c + l 2%nat * pv_my c = l 2%nat * pv_mx c + l 1%nat * pv_my c ->
    let H' := snd (c_shess pv_class s t x u l H) in
    zero_outside (p_shess (pv_patterns s)) H' /\
    is_hessian (fun y => weighted 4 l (pv_value s t y u)) x H'.
Proof. exact pv_hessian_when. Qed.

Theorem C14_planar_velocity_hessian_multipliers_refuted :
  let c := pv_wit 1 2 in
  let s0 := pv_ctor c vzero vzero in
  let s := fst (pv_eval s0 0 pv_x1 vzero) in
  let l := vset vzero 1 1 in
  reach pv_class no_other s0 s /\
  ~ is_hessian (fun y => weighted 4 l (pv_value s 0 y vzero)) pv_x1
       (snd (c_shess pv_class s 0 pv_x1 vzero l mzero)).
Proof. exact pv_hessian_multipliers_wrong. Qed.

Theorem C14_planar_velocity_hessian_stale_refuted :
  let c := pv_wit 1 1 in
  let s0 := pv_ctor c vzero vzero in
  let l := vset vzero 0 1 in
  ~ is_hessian (fun y => weighted 4 l (pv_value s0 0 y vzero)) pv_x1
       (snd (c_shess pv_class s0 0 pv_x1 vzero l mzero)).
Proof. exact pv_hessian_stale_wrong. Qed.

Theorem C14_planar_velocity_feasible : forall c w t x u,
  above 4 (pv_lower (c, w)) (snd (pv_eval (c, w) t x u)) <->
  let d := smooth_step (sm_K (pv_act c)) (disabled_of (pv_act c)) (x (pv_pos c + 2)%nat) in
  Rabs (u (pv_vel c)) <= d * pv_mx c /\ Rabs (u (pv_vel c + 1)%nat) <= d * pv_my c.
Proof. exact pv_feasible. Qed.

Theorem C14_no_sliding_at_ground : forall c w t x u,
  sm_disabled (pv_act c) = false -> x (pv_pos c + 2)%nat = 0 ->
  above 4 (pv_lower (c, w)) (snd (pv_eval (c, w) t x u)) -> u (pv_vel c) = 0 /\ u (pv_vel c + 1)%nat = 0.
Proof. exact pv_ground. Qed.

(** ** C15: classical complementarity *)
Theorem C15_complementarity_exact : forall c x0 u0, disjoint3 (cc_pos c) (cc_force c) ->
  constraint_exact cc_class (reach cc_class no_other (cc_ctor c x0 u0)) 1 cc_value cc_patterns.
Proof. exact cc_exact. Qed.

Theorem C15_planar_complementarity_exact : forall c x0 u0,
  constraint_exact cp_class (reach cp_class no_other (cp_ctor c x0 u0)) 2 cp_value cp_patterns.
Proof. exact cp_exact. Qed.

Theorem C15_complementarity_feasible : forall s t x u,
  below 1 (cc_upper s) (snd (cc_eval s t x u)) <->
  x (cc_pos (fst s) + 2)%nat * x (cc_force (fst s) + 2)%nat <= cc_tol (fst s).
Proof. exact cc_feasible. Qed.

Theorem C15_planar_complementarity_feasible : forall s t x u,
  let c := fst s in
  (above 2 (cp_lower s) (snd (cp_eval s t x u)) /\ below 2 (cp_upper s) (snd (cp_eval s t x u))) <->
  Rabs (u (cp_vel c) * x (cp_force c + 2)%nat) <= cp_tol c /\
  Rabs (u (cp_vel c + 1)%nat * x (cp_force c + 2)%nat) <= cp_tol c.
Proof. exact cp_feasible. Qed.

(** ** C16: dynamical complementarity *)
Theorem C16_dynamical_complementarity_exact : forall c x0 u0,
  disjoint3 (dc_pos c) (dc_force c) -> disjoint3 (dc_vel c) (dc_fctl c) ->
  constraint_exact dc_class (reach dc_class no_other (dc_ctor c x0 u0)) 1 dc_value dc_patterns.
Proof. exact dc_exact. Qed.

Theorem C16_decay : forall (c : dc_cfg) (w : R -> ws) (X U : R -> vec) (T : R),
  0 < dc_gain c ->
  (forall t, 0 <= t <= T ->
     is_derive (fun t => X t (dc_pos c + 2)%nat) t (U t (dc_vel c + 2)%nat) /\
     is_derive (fun t => X t (dc_force c + 2)%nat) t (U t (dc_fctl c + 2)%nat)) ->
  (forall t, 0 <= t <= T -> below 1 (dc_upper (c, w t)) (snd (dc_eval (c, w t) t (X t) (U t)))) ->
  forall t, 0 <= t <= T ->
    let prod := fun t => X t (dc_pos c + 2)%nat * X t (dc_force c + 2)%nat in
    prod t <= dc_ub c / dc_gain c + (prod 0 - dc_ub c / dc_gain c) * exp (- dc_gain c * t).
Proof. exact dc_decay. Qed.

Example C16_hypotheses_met : exists c, disjoint3 (dc_pos c) (dc_force c) /\ disjoint3 (dc_vel c) (dc_fctl c) /\ 0 < dc_gain c.
Proof.
  exists {| dc_gain := 20; dc_ub := 1/20; dc_pos := 3; dc_force := 0; dc_vel := 0; dc_fctl := 3 |}.
  unfold disjoint3; simpl. repeat split; try (left; lia); try (right; lia). lra.
Qed.

(** ** C17: quaternion norm *)
Theorem C17_quaternion_norm_exact : forall o x0 u0,
  constraint_exact qn_class (reach qn_class qn_other (qn_ctor o x0 u0)) 1 qn_value qn_patterns.
Proof. exact qn_exact. Qed.

Theorem C17_zero_iff_unit : forall o x0 u0 s t x u, reach qn_class qn_other (qn_ctor o x0 u0) s ->
  (snd (qn_eval s t x u) 0%nat = 0 <->
   sqrt ((x o)^2 + (x (o+1)%nat)^2 + (x (o+2)%nat)^2 + (x (o+3)%nat)^2) = 1).
Proof. exact qn_zero_iff. Qed.

Theorem C17_tolerance_band : forall o x0 u0 s t x u, reach qn_class qn_other (qn_ctor o x0 u0) s ->
  ((above 1 (qn_lower s) (snd (qn_eval s t x u)) /\ below 1 (qn_upper s) (snd (qn_eval s t x u))) <->
   Rabs ((x o)^2 + (x (o+1)%nat)^2 + (x (o+2)%nat)^2 + (x (o+3)%nat)^2 - 1) <= qn_ub (fst s)).
Proof. exact qn_feasible. Qed.

Theorem C17_set_tolerance : forall s tol, qn_ub (fst (qn_setEqualityTolerance s tol)) = tol / 2.
Proof. exact (fun s tol => eq_refl). Qed.

Print Assumptions C11_force_control_exact.
Print Assumptions C14_planar_velocity_hessian_multipliers_refuted.
Print Assumptions C16_decay.
Print Assumptions C17_quaternion_norm_exact.
