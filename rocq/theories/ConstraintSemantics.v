(** Meaning of the contact constraints for a user: feasible sets, decay, and the
    places where the code departs from the documented behaviour. *)
From Coq Require Import Reals List Arith Lia Lra Bool FunctionalExtensionality.
From Coquelicot Require Import Coquelicot.
From Verif Require Import Spec SpecConstraints Smoothing ConstraintsModel ConstraintStatements SmoothingProofs PartialLib ConstraintProofs.
Import ListNotations.
Local Open Scope R_scope.


Lemma partial_unique f x k d d' : partial f x k d -> partial f x k d' -> d = d'.
Proof. unfold partial. intros A B. rewrite <- (is_derive_unique _ _ _ A). apply is_derive_unique. exact B. Qed.

Lemma hessian_unique f x H H' : is_hessian f x H -> is_hessian f x H' -> forall j k, H j k = H' j k.
Proof.
  intros [g [G1 G2]] [g' [G1' G2']] j k.
  eapply partial_unique. apply G2. eapply partial_ext; [|apply G2'].
  intros y. eapply partial_unique. apply G1'. apply G1.
Qed.

(** *** Feasible sets *)
Lemma cfc_feasible c w t x u :
  below 1 (cfc_upper (c, w)) (snd (cfc_eval (c, w) t x u)) <->
  let d := smooth_bump (sm_K (cfc_act c)) (disabled_of (cfc_act c)) (x (cfc_pos c + 2)%nat) in
  u (cfc_ctrl c + 2)%nat <= d * cfc_max c - (1 - d) * cfc_diss c * x (cfc_force c + 2)%nat.
Proof.
  simpl. rewrite bump_fun. unfold vset, seg, vzero; simpl. split.
  - intros H. specialize (H 0%nat ltac:(lia)). simpl in H. lra.
  - intros H i Hi. rows i. simpl. lra.
Qed.

Lemma fr_feasible s t x u : 0 < fr_mu (fst s) ->
  let o := fr_force (fst s) in
  (below 1 (fr_upper s) (snd (fr_eval s t x u)) <->
   sqrt ((x o)^2 + (x (o+1)%nat)^2) <= fr_mu (fst s) * Rabs (x (o+2)%nat)).
Proof.
  intros Hm. destruct s as [c w]. simpl in *. unfold vset, seg, vzero; simpl. rewrite Nat.add_0_r.
  set (a := x (fr_force c)). set (b := x (fr_force c + 1)%nat). set (d := x (fr_force c + 2)%nat).
  assert (E : a * (a * 1) + b * (b * 1) = a * a + b * b) by ring.
  assert (Hd : Rabs d * Rabs d = d * d) by (rewrite <- Rabs_mult; apply Rabs_pos_eq; nra).
  pose proof (Rabs_pos d). split.
  - intros HH. specialize (HH 0%nat ltac:(lia)). simpl in HH.
    rewrite <- (sqrt_Rsqr (fr_mu c * Rabs d)) by nra. apply sqrt_le_1_alt. unfold Rsqr.
    replace (fr_mu c * Rabs d * (fr_mu c * Rabs d)) with (fr_mu c * fr_mu c * (d * d)) by (rewrite <- Hd; ring). nra.
  - intros HH i Hi. rows i. simpl.
    assert (0 <= a * (a * 1) + b * (b * 1)) by nra.
    pose proof (sqrt_pos (a * (a * 1) + b * (b * 1))).
    assert (a * (a * 1) + b * (b * 1) <= fr_mu c * Rabs d * (fr_mu c * Rabs d)).
    { rewrite <- (sqrt_sqrt (a * (a * 1) + b * (b * 1))) at 1 by auto. apply Rmult_le_compat; auto. }
    replace (fr_mu c * Rabs d * (fr_mu c * Rabs d)) with (fr_mu c * fr_mu c * (d * d)) in H2 by (rewrite <- Hd; ring). nra.
Qed.

Lemma nv_feasible c w t x u :
  above 2 (nv_lower (c, w)) (snd (nv_eval (c, w) t x u)) <->
  let d := smooth_step (sm_K (nv_act c)) (disabled_of (nv_act c)) (x (nv_pos c + 2)%nat) in
  - (d * nv_max c) <= u (nv_vel c + 2)%nat <= nv_max c.
Proof.
  simpl. rewrite step_fun. unfold vset, seg, vzero; simpl. split.
  - intros H. pose proof (H 0%nat ltac:(lia)). pose proof (H 1%nat ltac:(lia)). simpl in *. lra.
  - intros H i Hi. rows i; simpl; lra.
Qed.

Lemma pv_feasible c w t x u :
  above 4 (pv_lower (c, w)) (snd (pv_eval (c, w) t x u)) <->
  let d := smooth_step (sm_K (pv_act c)) (disabled_of (pv_act c)) (x (pv_pos c + 2)%nat) in
  Rabs (u (pv_vel c)) <= d * pv_mx c /\ Rabs (u (pv_vel c + 1)%nat) <= d * pv_my c.
Proof.
  simpl. rewrite step_fun. unfold vset, seg, vzero; simpl. rewrite Nat.add_0_r. split.
  - intros H. pose proof (H 0%nat ltac:(lia)). pose proof (H 1%nat ltac:(lia)). pose proof (H 2%nat ltac:(lia)). pose proof (H 3%nat ltac:(lia)). simpl in *.
    split; apply Rabs_le; lra.
  - intros [H1 H2] i Hi. apply Rabs_le_between in H1. apply Rabs_le_between in H2. rows i; simpl; lra.
Qed.

(** A point on the ground (height 0, activation not disabled) cannot slide nor go down. *)
Lemma pv_ground c w t x u : sm_disabled (pv_act c) = false -> x (pv_pos c + 2)%nat = 0 ->
  above 4 (pv_lower (c, w)) (snd (pv_eval (c, w) t x u)) -> u (pv_vel c) = 0 /\ u (pv_vel c + 1)%nat = 0.
Proof.
  intros Hd Hz H. apply pv_feasible in H. unfold disabled_of in H. rewrite Hd, Hz in H. simpl in H.
  rewrite Rmult_0_r, tanh_0, !Rmult_0_l in H. destruct H as [H1 H2].
  split; apply Rabs_eq_0; generalize (Rabs_pos (u (pv_vel c))) (Rabs_pos (u (pv_vel c + 1)%nat)); lra.
Qed.
Lemma nv_ground c w t x u : sm_disabled (nv_act c) = false -> x (nv_pos c + 2)%nat = 0 ->
  above 2 (nv_lower (c, w)) (snd (nv_eval (c, w) t x u)) -> 0 <= u (nv_vel c + 2)%nat.
Proof.
  intros Hd Hz H. apply nv_feasible in H. unfold disabled_of in H. rewrite Hd, Hz in H. simpl in H.
  rewrite Rmult_0_r, tanh_0, Rmult_0_l in H. lra.
Qed.

Lemma cc_feasible s t x u : below 1 (cc_upper s) (snd (cc_eval s t x u)) <->
  x (cc_pos (fst s) + 2)%nat * x (cc_force (fst s) + 2)%nat <= cc_tol (fst s).
Proof.
  destruct s as [c w]. simpl. unfold vset, seg, vzero; simpl. split.
  - intros H. apply (H 0%nat). lia.
  - intros H i Hi. rows i. simpl. lra.
Qed.

Lemma cp_feasible s t x u :
  let c := fst s in
  (above 2 (cp_lower s) (snd (cp_eval s t x u)) /\ below 2 (cp_upper s) (snd (cp_eval s t x u))) <->
  Rabs (u (cp_vel c) * x (cp_force c + 2)%nat) <= cp_tol c /\
  Rabs (u (cp_vel c + 1)%nat * x (cp_force c + 2)%nat) <= cp_tol c.
Proof.
  destruct s as [c w]. simpl. unfold vset, seg, vzero; simpl. rewrite Nat.add_0_r. split.
  - intros [A B]. pose proof (A 0%nat ltac:(lia)). pose proof (A 1%nat ltac:(lia)).
    pose proof (B 0%nat ltac:(lia)). pose proof (B 1%nat ltac:(lia)). simpl in *.
    split; apply Rabs_le; lra.
  - intros [A B]. apply Rabs_le_between in A. apply Rabs_le_between in B.
    split; intros i Hi; rows i; simpl; lra.
Qed.

Lemma qn_feasible o x0 u0 s t x u : reach qn_class qn_other (qn_ctor o x0 u0) s ->
  ((above 1 (qn_lower s) (snd (qn_eval s t x u)) /\ below 1 (qn_upper s) (snd (qn_eval s t x u))) <->
   Rabs ((x o)^2 + (x (o+1)%nat)^2 + (x (o+2)%nat)^2 + (x (o+3)%nat)^2 - 1) <= qn_ub (fst s)).
Proof.
  intros R.
  assert (E : qn_off (fst s) = o /\ qn_lb (fst s) = - qn_ub (fst s)).
  { revert s R. apply reach_inv; simpl; try (intros [? ?]; simpl; auto; fail).
    - split; auto. lra.
    - intros s s' [? ?] [tol ->]. simpl. split; auto. lra. }
  destruct E as [E1 E2]. destruct s as [c w]; simpl in *. subst o.
  unfold vset, seg, vzero, quat_sqnorm; simpl. rewrite Nat.add_0_r. split.
  - intros [A B]. pose proof (A 0%nat ltac:(lia)). pose proof (B 0%nat ltac:(lia)). simpl in *. apply Rabs_le. lra.
  - intros A. apply Rabs_le_between in A. split; intros i Hi; rows i; simpl; lra.
Qed.

Lemma qn_zero_iff o x0 u0 s t x u : reach qn_class qn_other (qn_ctor o x0 u0) s ->
  (snd (qn_eval s t x u) 0%nat = 0 <-> sqrt ((x o)^2 + (x (o+1)%nat)^2 + (x (o+2)%nat)^2 + (x (o+3)%nat)^2) = 1).
Proof.
  intros R. destruct (qn_inv o x0 u0 s R) as [E1 _]. destruct s as [c w]; simpl in *. subst o.
  unfold vset, seg, vzero, quat_sqnorm; simpl. rewrite Nat.add_0_r.
  set (q := x (qn_off c) * (x (qn_off c) * 1) + x (qn_off c + 1)%nat * (x (qn_off c + 1)%nat * 1) +
     x (qn_off c + 2)%nat * (x (qn_off c + 2)%nat * 1) + x (qn_off c + 3)%nat * (x (qn_off c + 3)%nat * 1)).
  assert (0 <= q) by (unfold q; nra).
  split; intros HH.
  - replace q with 1 by lra. apply sqrt_1.
  - assert (q = 1). { rewrite <- (sqrt_sqrt q) by auto. rewrite HH. lra. } lra.
Qed.

(** *** Decay along trajectories of the dynamical complementarity constraint *)
Lemma dc_decay (c : dc_cfg) (w : R -> ws) (X U : R -> vec) (T : R) :
  0 < dc_gain c ->
  (forall t, 0 <= t <= T ->
     is_derive (fun t => X t (dc_pos c + 2)%nat) t (U t (dc_vel c + 2)%nat) /\
     is_derive (fun t => X t (dc_force c + 2)%nat) t (U t (dc_fctl c + 2)%nat)) ->
  (forall t, 0 <= t <= T -> below 1 (dc_upper (c, w t)) (snd (dc_eval (c, w t) t (X t) (U t)))) ->
  forall t, 0 <= t <= T ->
    let prod := fun t => X t (dc_pos c + 2)%nat * X t (dc_force c + 2)%nat in
    prod t <= dc_ub c / dc_gain c + (prod 0 - dc_ub c / dc_gain c) * exp (- dc_gain c * t).
Proof.
  intros Hk HD HC t Ht prod.
  set (k := dc_gain c) in *. set (e := dc_ub c) in *.
  set (h := fun t => (prod t - e / k) * exp (k * t)).
  set (h' := fun t => (U t (dc_vel c + 2)%nat * X t (dc_force c + 2)%nat + X t (dc_pos c + 2)%nat * U t (dc_fctl c + 2)%nat
                       + k * prod t - e) * exp (k * t)).
  assert (Hh : forall s, 0 <= s <= T -> is_derive h s (h' s)).
  { intros s Hs. destruct (HD s Hs) as [D1 D2]. unfold h, h', prod.
    evar_last.
    { apply (is_derive_mult (K:=R_AbsRing)).
      - apply (is_derive_minus (K:=R_AbsRing) (V:=R_NormedModule)).
        + apply (is_derive_mult (K:=R_AbsRing)); [exact D1|exact D2| intros; simpl; unfold mult; simpl; req; ring].
        + apply (is_derive_const (K:=R_AbsRing) (V:=R_NormedModule)).
      - instantiate (1 := k * exp (k * s)). auto_derive; auto. req. ring.
      - intros; simpl; unfold mult; simpl; req; ring. }
    unfold plus, minus, opp, plus, mult, zero; simpl. unfold mult; simpl. field. lra. }
  assert (Hle : h t <= h 0).
  { destruct (Req_dec t 0) as [->|Hn]; [lra|].
    destruct (MVT_gen h 0 t h') as [xi [Hxi E]].
    - intros z Hz. rewrite Rmin_left, Rmax_right in Hz by lra. apply Hh. lra.
    - intros z Hz. rewrite Rmin_left, Rmax_right in Hz by lra.
      apply continuity_pt_filterlim. apply (ex_derive_continuous (K:=R_AbsRing) (V:=R_NormedModule)). exists (h' z). apply Hh. lra.
    - rewrite Rmin_left, Rmax_right in Hxi by lra.
      assert (h' xi <= 0).
      { specialize (HC xi ltac:(lra) 0%nat ltac:(lia)). simpl in HC. unfold vset, seg in HC; simpl in HC.
        fold k e in HC. unfold h'. generalize (exp_pos (k * xi)). intros. unfold prod.
        assert (U xi (dc_vel c + 2)%nat * X xi (dc_force c + 2)%nat + X xi (dc_pos c + 2)%nat * U xi (dc_fctl c + 2)%nat +
            k * (X xi (dc_pos c + 2)%nat * X xi (dc_force c + 2)%nat) - e <= 0) by lra. nra. }
      nra. }
  unfold h in Hle. rewrite Rmult_0_r, exp_0, Rmult_1_r in Hle.
  assert (E : exp (k * t) * exp (- k * t) = 1).
  { rewrite <- exp_plus. replace (k * t + - k * t) with 0 by ring. apply exp_0. }
  generalize (exp_pos (- k * t)). intros Hp.
  assert ((prod t - e / k) * exp (k * t) * exp (- k * t) <= (prod 0 - e / k) * exp (- k * t)) by (apply Rmult_le_compat_r; lra).
  rewrite Rmult_assoc, E in H. lra.
Qed.

(** *** Planar velocity: the state Hessian is wrong *)

Lemma ht_dderiv_1 : ht_dderiv smoothing_ctor 1 <> 0.
Proof.
  unfold ht_dderiv, ht_eval, smoothing_ctor; simpl. rewrite Rmult_1_l.
  assert (0 < tanh 1) by (rewrite <- tanh_0; apply tanh_increasing; lra).
  assert (0 < 1 / cosh 1) by (unfold Rdiv; rewrite Rmult_1_l; apply Rinv_0_lt_compat, cosh_pos).
  assert (0 < tanh 1 * (1 / cosh 1 * (1 / cosh 1))) by (apply Rmult_lt_0_compat; [auto|apply Rmult_lt_0_compat; auto]).
  replace (1 * 1) with 1 by ring. lra.
Qed.

Lemma pv_true_hessian c w t x u l :
  is_hessian (fun y => weighted 4 l (pv_value (c, w) t y u)) x
    (mset mzero (pv_pos c + 2) (pv_pos c + 2)
       (((l 0%nat + l 2%nat) * pv_mx c + (l 1%nat + l 3%nat) * pv_my c) * ht_dderiv (pv_act c) (x (pv_pos c + 2)%nat))).
Proof.
  unfold pv_value; simpl. eapply weighted_hessian. { intros y. apply pv_jacobian. }
  intros j k. simpl. eapply partial_eq. { deriv known. }
  unfold ind, mset, mzero; eqbs; simpl; try subst; try ring.
Qed.

(** Multipliers 1 and 2 are paired with the wrong velocity limits, even when the
    constraint has just been evaluated at the very same point. *)
Lemma pv_hessian_multipliers_wrong :
  let c := pv_wit 1 2 in
  let s0 := pv_ctor c vzero vzero in
  let s := fst (pv_eval s0 0 pv_x1 vzero) in
  let l := vset vzero 1 1 in
  reach pv_class no_other s0 s /\
  ~ is_hessian (fun y => weighted 4 l (pv_value s 0 y vzero)) pv_x1 (snd (c_shess pv_class s 0 pv_x1 vzero l mzero)).
Proof.
  cbv zeta. split.
  { apply (reach_eval pv_class no_other _ _ 0 pv_x1 vzero). apply reach_init. }
  intros H. pose proof (hessian_unique _ _ _ _ H (pv_true_hessian _ _ _ _ _ _) 5%nat 5%nat) as E.
  simpl in E. unfold mset, pv_pz in E; simpl in E. unfold vset, vzero, seg, pv_x1 in E; simpl in E. generalize ht_dderiv_1. lra.
Qed.

(** The point height used is the one of the previous call, not the one requested. *)
Lemma pv_hessian_stale_wrong :
  let c := pv_wit 1 1 in
  let s0 := pv_ctor c vzero vzero in
  let l := vset vzero 0 1 in
  ~ is_hessian (fun y => weighted 4 l (pv_value s0 0 y vzero)) pv_x1 (snd (c_shess pv_class s0 0 pv_x1 vzero l mzero)).
Proof.
  cbv zeta. intros H. pose proof (hessian_unique _ _ _ _ H (pv_true_hessian _ _ _ _ _ _) 5%nat 5%nat) as E.
  simpl in E. unfold mset, pv_pz in E; simpl in E. unfold vset, vzero, pv_x1 in E; simpl in E.
  assert (ht_dderiv smoothing_ctor 0 = 0).
  { unfold ht_dderiv, ht_eval, smoothing_ctor; simpl. rewrite Rmult_0_r, tanh_0. ring. }
  generalize ht_dderiv_1. lra.
Qed.

(** *** Declared patterns fit the optimisation vectors *)
Lemma cfc_fits s nx nu : (cfc_pos (fst s) + 3 <= nx)%nat -> (cfc_force (fst s) + 3 <= nx)%nat -> (cfc_ctrl (fst s) + 3 <= nu)%nat ->
  pattern_fits 1 nx (p_sjac (cfc_patterns s)) /\ pattern_fits 1 nu (p_cjac (cfc_patterns s)) /\ pattern_fits nx nx (p_shess (cfc_patterns s)).
Proof.
  intros. unfold cfc_patterns, cfc_pz, cfc_fz, cfc_uz; simpl. repeat split; simpl in *;
    repeat match goal with H : _ \/ _ |- _ => destruct H | H : (_,_) = (_,_) |- _ => injection H; clear H; intros | H : False |- _ => destruct H end; lia.
Qed.
