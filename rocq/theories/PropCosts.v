(** Properties C18, C20-C25, C48: the costs and the feet height constraint.
    [kreach C other s0] ranges over every object state obtained from the freshly
    constructed object [s0] by any sequence of calls (with any arguments). *)
From Coq Require Import Reals List Arith Lia Lra.
From Coquelicot Require Import Coquelicot.
From Verif Require Import Spec SpecConstraints SpecCosts Smoothing ConstraintsModel ConstraintStatements
  CostsModel CostStatements SmoothingProofs ConstraintProofs ConstraintSemantics
  CostProofs CostProofs2 CostProofs3 CostProofs4 CostProofs5.
Import ListNotations.
Local Open Scope R_scope.

(** ** C18: feet relative height *)
Theorem C18_feet_height_exact : forall c x0 u0, fh_left c <> [] -> fh_right c <> [] ->
  disjoint_ranges 3 (fh_left c ++ fh_right c) ->
  constraint_exact fh_class (reach fh_class no_other (fh_ctor c x0 u0)) 1 fh_value fh_patterns.
Proof. exact (fun c x0 u0 _ _ => fh_exact c x0 u0). Qed.

(** The constraint holds iff the mean heights differ by at most the configured amount. *)
Theorem C18_feet_height_feasible : forall c w t x u,
  (forall v, fh_lower (c, w) = Some v -> v 0%nat <= snd (fh_eval (c, w) t x u) 0%nat) /\
  (forall v, fh_upper (c, w) = Some v -> snd (fh_eval (c, w) t x u) 0%nat <= v 0%nat) <->
  Rabs (lmean (fun o => x (o + 2)%nat) (fh_left c) - lmean (fun o => x (o + 2)%nat) (fh_right c)) <= fh_max c.
Proof. exact fh_feasible. Qed.

Example C18_hypotheses_met : exists c, fh_left c <> [] /\ fh_right c <> [] /\ disjoint_ranges 3 (fh_left c ++ fh_right c).
Proof. exists {| fh_left := [3; 9]%nat; fh_right := [15; 21]%nat; fh_max := 1 |}. simpl. repeat split; try discriminate; intros; lia. Qed.

(** ** C20: swing and complementarity costs *)
Theorem C20_swing_exact : forall c x0 u0,
  cost_exact sw_class (kreach sw_class no_other (sw_ctor c x0 u0)) always_valid sw_value sw_sup.
Proof. exact sw_exact. Qed.
Theorem C20_complementarity_exact : forall c x0 u0,
  cost_exact kc_class (kreach kc_class no_other (kc_ctor c x0 u0)) always_valid kc_value kc_sup.
Proof. exact kc_exact. Qed.
Theorem C20_swing_nonnegative : forall c w t x u v,
  0 <= sw_w c 0%nat -> 0 <= sw_w c 1%nat -> 0 <= sw_w c 2%nat -> snd (sw_eval (c, w) t x u) = Some v -> 0 <= v.
Proof. exact sw_nonneg. Qed.
(** The complementarity cost is zero exactly when the point carries no force or does not move vertically. *)
Theorem C20_complementarity_nonnegative : forall s t x u v, snd (kc_eval s t x u) = Some v ->
  0 <= v /\ (v = 0 <-> x (kc_force (fst s) + 2)%nat = 0 \/ u (kc_vel (fst s) + 2)%nat = 0).
Proof. exact kc_nonneg. Qed.
Example C20_nontrivial : exists v, snd (sw_eval (sw_ctor {| sw_vel := 0; sw_pos := 3; sw_h := 1; sw_w := fun _ => 1 |} vzero vzero) 0 (fun _ => 2) (fun _ => 1)) = Some v /\ 0 < v.
Proof. eexists. split; [reflexivity|]. cbn. unfold seg. lra. Qed.

(** ** C21: phantom forces *)
Theorem C21_phantom_value_and_gradient_partial : forall c x0 u0, disjoint3 (ph_pos c) (ph_force c) ->
  let ok := kreach ph_class no_other (ph_ctor c x0 u0) in
  cost_value_correct ph_class ok always_valid ph_value /\
  state_gradient_exact ph_class ok always_valid ph_value (fun s => q_sgrad (ph_sup s)) /\
  control_gradient_exact ph_class ok always_valid ph_value (fun s => q_cgrad (ph_sup s)) /\
  cost_control_hessian_exact ph_class ok always_valid ph_value (fun s => q_chess (ph_sup s)) /\
  cost_mixed_hessian_exact ph_class ok always_valid ph_value (fun s => q_mhess (ph_sup s)) /\
  cost_methods_keep_value ph_class ok ph_value.
Proof. exact ph_exact_partial. Qed.

(** The reported state Hessian is the Hessian of the cost exactly in these cases. *)
Theorem C21_phantom_hessian_iff : forall c x0 u0 s, disjoint3 (ph_pos c) (ph_force c) ->
  kreach ph_class no_other (ph_ctor c x0 u0) s ->
  forall t x u H, zero_outside (q_shess (ph_sup s)) H ->
  let fz := x (ph_force c + 2)%nat in let pz := x (ph_pos c + 2)%nat in
  ((exists H', snd (ph_shess s t x u H) = Some H' /\ is_hessian (fun y => ph_value s t y u) x H') <->
   (fz = 0 \/ fz = 1 \/ hs_eval (ph_act c) pz = 1 \/ hs_dderiv (ph_act c) pz = 0)).
Proof. exact ph_hessian_iff. Qed.

(** Exactness of the state Hessian fails: point 2 m above the ground with a force of 2 N. *)
Theorem C21_phantom_hessian_refuted :
  let c := {| ph_act := smoothing_ctor; ph_pos := 3; ph_force := 0 |} in
  let s := ph_ctor c vzero vzero in
  let x := fun _ : nat => 2 in
  ~ exists H', snd (ph_shess s 0 x vzero mzero) = Some H' /\ is_hessian (fun y => ph_value s 0 y vzero) x H'.
Proof.
  intros c s x E.
  apply (ph_hessian_iff c vzero vzero s) in E; [|unfold disjoint3; simpl; lia|apply kreach_init|intros i k _; reflexivity].
  unfold x in E. destruct hs_dderiv_2 as [A B]. simpl in E. destruct E as [E|[E|[E|E]]]; [lra|lra|exact (B E)|exact (A E)].
Qed.

(** ** C22: force mean and force ratio *)
Theorem C22_force_mean_exact : forall c x0 u0, disjoint_ranges 3 (fm_own c :: fm_others c) ->
  cost_exact fm_class (kreach fm_class no_other (fm_ctor c x0 u0)) always_valid fm_value fm_sup.
Proof. exact fm_exact. Qed.
Theorem C22_force_ratio_exact : forall own others x0 u0, disjoint_ranges 3 (own :: others) ->
  cost_exact frt_class (kreach frt_class frt_other (frt_ctor own others x0 u0)) always_valid frt_value frt_sup.
Proof. exact frt_exact. Qed.
Theorem C22_force_mean_zero_iff : forall own all x, force_mean_value own all x = 0 <->
  (x own = lmean (fun o => x o) all /\ x (own + 1)%nat = lmean (fun o => x (o + 1)%nat) all).
Proof. exact force_mean_zero. Qed.
Theorem C22_force_ratio_zero_iff : forall r own all x, force_ratio_value r own all x = 0 <->
  x (own + 2)%nat = r * lsum (fun o => x (o + 2)%nat) all.
Proof. exact force_ratio_zero. Qed.
Example C22_hypotheses_met : disjoint_ranges 3 [0; 6; 12; 18]%nat.
Proof. simpl. repeat split; intros; lia. Qed.

(** ** C23: mean point position and feet distance *)
Theorem C23_mean_point_exact : forall pts x0 u0, pts <> [] -> disjoint_ranges 3 pts ->
  cost_exact mp_class (kreach mp_class mp_other (mp_ctor pts x0 u0)) mp_valid mp_value mp_sup.
Proof. exact mp_exact. Qed.
(** Without a valid reference or weight no value and no gradient is produced. *)
Theorem C23_mean_point_invalid : forall pts x0 u0 s, kreach mp_class mp_other (mp_ctor pts x0 u0) s -> forall t x u g,
  (mp_ref (fst s) t = None \/ mp_weight (fst s) t = None) ->
  snd (mp_eval s t x u) = None /\ snd (mp_sgrad s t x u g) = None.
Proof. exact mp_invalid. Qed.
Theorem C23_feet_distance_exact : forall all x0 u0, side all true <> [] -> side all false <> [] ->
  disjoint_ranges 3 (map fst all) ->
  cost_exact fd_class (kreach fd_class no_other (fd_ctor all x0 u0)) always_valid fd_value (fd_sup all).
Proof. exact fd_exact. Qed.
Theorem C23_feet_distance_zero_iff : forall l r x, feet_distance_value l r x = 0 <->
  forall c, (c < 3)%nat -> lmean (fun o => x (o + c)%nat) l = lmean (fun o => x (o + c)%nat) r.
Proof. exact feet_distance_zero. Qed.
Example C23_hypotheses_met : let all := [(3, true); (9, true); (15, false); (21, false); (27, false)]%nat in
  side all true <> [] /\ side all false <> [] /\ disjoint_ranges 3 (map fst all).
Proof. simpl. repeat split; try discriminate; intros; lia. Qed.

(** ** C24: foot yaw *)
Theorem C24_foot_yaw_exact : forall off pts x0 u0 s0, fy_ctor off pts x0 u0 = Some s0 ->
  disjoint_ranges 3 (map off (seq 0 (length pts))) ->
  cost_exact fy_class (kreach fy_class fy_other s0) fy_valid fy_value fy_sup.
Proof. exact fy_exact. Qed.
(** Feet whose selected corners form axis-aligned edges: zero cost when the points are
    the construction points rotated by the desired yaw and translated. *)
Theorem C24_foot_yaw_zero_partial : forall off pts x0 u0 s0 s t x u psi tx ty,
  fy_ctor off pts x0 u0 = Some s0 ->
  (forall b r l, sel_br (fy_select pts) = Some b -> sel_tr (fy_select pts) = Some r -> sel_tl (fy_select pts) = Some l ->
     snd (nth b pts (0, 0)) = snd (nth r pts (0, 0)) /\ fst (nth r pts (0, 0)) = fst (nth l pts (0, 0))) ->
  kreach fy_class fy_other s0 s ->
  fy_ref (fst s) t = Some psi ->
  (forall i, (i < length pts)%nat -> x (off i) = planar_x psi tx (nth i pts (0, 0)) /\ x (off i + 1)%nat = planar_y psi ty (nth i pts (0, 0))) ->
  snd (fy_eval s t x u) = Some 0.
Proof. exact fy_zero. Qed.
(** A square foot turned in its own frame: positive cost at the desired yaw. *)
Theorem C24_foot_yaw_zero_refuted : exists s0 v, fy_ctor (fun i => 3 * i)%nat tilted_foot vzero vzero = Some s0 /\
  fy_ref (fst s0) 0 = Some 0 /\
  (forall i, (i < 4)%nat -> tilted_x (3 * i)%nat = planar_x 0 0 (nth i tilted_foot (0, 0)) /\ tilted_x (3 * i + 1)%nat = planar_y 0 0 (nth i tilted_foot (0, 0))) /\
  snd (fy_eval s0 0 tilted_x vzero) = Some v /\ 0 < v.
Proof. exact fy_tilted_wrong. Qed.
Example C24_hypotheses_met : exists s0, fy_ctor (fun i => 3 * i)%nat tilted_foot vzero vzero = Some s0 /\
  disjoint_ranges 3 (map (fun i => 3 * i)%nat (seq 0 (length tilted_foot))).
Proof. destruct fy_tilted_wrong as [s0 [v [E _]]]. exists s0. split; [exact E|]. simpl. repeat split; intros; lia. Qed.

(** ** C25: postural joint velocity cost *)
Theorem C25_postural_exact : forall joints vel n weights gains ref x0 u0,
  cost_exact jp_class (kreach jp_class no_other (jp_ctor joints vel n weights gains ref x0 u0)) jp_valid
     (jp_value joints vel n weights gains ref) jp_sup.
Proof. exact jp_exact. Qed.
Theorem C25_postural_zero_iff : forall joints vel n weights gains d x u, (forall i, (i < n)%nat -> weights i <> 0) ->
  (postural_value n weights gains d joints vel x u = 0 <->
   forall i, (i < n)%nat -> u (vel + i)%nat = - gains i * (x (joints + i)%nat - d i)).
Proof. exact jp_zero. Qed.
Example C25_hypotheses_met : forall i, (i < 23)%nat -> (fun _ : nat => 1) i <> 0.
Proof. intros. lra. Qed.

(** ** C48: CoM velocity reference *)
Theorem C48_momentum_reference : forall s t v, lm_ref s t = Some v -> length v = 3%nat ->
  snd (lm_get s t) = (map (fun a => lm_mass s * a) v, true).
Proof. exact lm_get_ok. Qed.
Theorem C48_momentum_reference_invalid : forall s t,
  (lm_ref s t = None \/ exists v, lm_ref s t = Some v /\ length v <> 3%nat) -> snd (lm_get s t) = ([0; 0; 0], false).
Proof. exact lm_get_bad. Qed.
Theorem C48_momentum_reference_stable : forall s t, lm_mass (fst (lm_get s t)) = lm_mass s /\ lm_ref (fst (lm_get s t)) = lm_ref s.
Proof. exact lm_stable. Qed.
Theorem C48_total_mass : forall links, lm_totalMass links = lsum (fun m => m) links.
Proof. exact lm_mass_sum. Qed.
Example C48_nontrivial : snd (lm_get (lm_setReference (lm_ctor 30) (fun _ => Some [1; 0; 0])) 0) = ([30 * 1; 30 * 0; 30 * 0], true).
Proof. reflexivity. Qed.

Print Assumptions C18_feet_height_exact.
Print Assumptions C20_swing_exact.
Print Assumptions C21_phantom_hessian_iff.
Print Assumptions C21_phantom_hessian_refuted.
Print Assumptions C22_force_mean_exact.
Print Assumptions C23_feet_distance_exact.
Print Assumptions C24_foot_yaw_exact.
Print Assumptions C24_foot_yaw_zero_refuted.
Print Assumptions C25_postural_exact.
Print Assumptions C48_momentum_reference.
