From Coq Require Import Reals List Arith Lia Lra Bool FunctionalExtensionality.
From Coquelicot Require Import Coquelicot.
From Verif Require Import Spec SpecConstraints Smoothing ConstraintsModel ConstraintStatements SmoothingProofs PartialLib.
Import ListNotations.
Local Open Scope R_scope.


(** The workspace buffers are zero outside the declared patterns. *)
Definition buf_ok (pat : patterns) (w : ws) : Prop :=
  zero_outside (p_sjac pat) (w_sj w) /\ zero_outside (p_cjac pat) (w_cj w).

Lemma buf_ok_init pat x u : buf_ok pat (ws_init x u).
Proof. split; intros i k _; reflexivity. Qed.

(** The activation functions as specified. *)
Lemma bump_fun a : smooth_bump (sm_K a) (disabled_of a) = hs_eval a.
Proof. apply functional_extensionality. intros; symmetry; apply hs_eval_value. Qed.
Lemma step_fun a : smooth_step (sm_K a) (disabled_of a) = ht_eval a.
Proof. apply functional_extensionality. intros; symmetry; apply ht_eval_value. Qed.

Ltac known := first [simple apply hs_deriv_ok | simple apply hs_dderiv_ok | simple apply ht_deriv_ok | simple apply ht_dderiv_ok].
Ltac unpack := repeat match goal with H : _ /\ _ |- _ => destruct H end.
(** Close a [zero_outside pat (mset ... M)] goal. *)
Ltac zout :=
  let i := fresh "i" in let k := fresh "k" in let N := fresh "N" in
  intros i k N; unfold mset; simpl in *; rewrite ?Nat.add_0_r in *;
  repeat (match goal with
  | |- context [Nat.eqb ?a ?b] => destruct (Nat.eqb_spec a b)
  end; simpl);
  try reflexivity;
  try (exfalso; apply N; simpl; subst; auto 10; fail);
  try (match goal with Z : zero_outside _ ?M |- ?M _ _ = 0 => apply Z; simpl; rewrite ?Nat.add_0_r; auto end).
Ltac rows i := repeat (destruct i as [|i]; try lia).
Ltac matrix_eq :=
  unfold ind, mset, vzero, mzero; eqbs; simpl; try subst; zero_entry; try ring; try (field_simplify; lra).

(** ** ContactForceControlConstraints *)
Section CFC.
  Variable c : cfc_cfg.
  Variables x0 u0 : vec.
  Hypothesis D : disjoint3 (cfc_pos c) (cfc_force c).
  Let ok := reach cfc_class no_other (cfc_ctor c x0 u0).


  Lemma cfc_inv s : ok s -> fst s = c /\ buf_ok (cfc_patterns s) (snd s).
  Proof.
    unfold ok. revert s. apply reach_inv.
    - split; [reflexivity|apply buf_ok_init].
    - intros [c' w] t x u [? [? ?]]; simpl in *; (split; [auto|split; simpl; auto]).
    - intros [c' w] t x u J [? [? ?]]; simpl in *; (split; [auto|split; simpl; auto]); zout.
    - intros [c' w] t x u J [? [? ?]]; simpl in *; (split; [auto|split; simpl; auto]); zout.
    - intros [c' w] t x u l H [? [? ?]]; simpl in *; (split; [auto|split; simpl; auto]).
    - intros [c' w] t x u l H [? [? ?]]; simpl in *; (split; [auto|split; simpl; auto]).
    - intros [c' w] t x u l H [? [? ?]]; simpl in *; (split; [auto|split; simpl; auto]).
    - intros ? ? ? [].
  Qed.

  Definition cfc_J (a : smoothing) M k pz fz (y : vec) : mat := fun _ j =>
    (- hs_deriv a (y pz) * M - hs_deriv a (y pz) * k * y fz) * ind pz j + (1 - hs_eval a (y pz)) * k * ind fz j.

  Lemma cfc_jacobian a M k pz fz uz u y :
    is_jacobian 1 (fun y => force_control_value (smooth_bump (sm_K a) (disabled_of a)) M k pz fz uz y u) y (cfc_J a M k pz fz y).
  Proof.
    intros i j Hi. unfold force_control_value.
    rewrite bump_fun.
    eapply partial_eq. { deriv known. }
    unfold cfc_J, ind. eqbs; ring.
  Qed.

  Theorem cfc_exact : constraint_exact cfc_class ok 1 cfc_value cfc_patterns.
  Proof.
    unfold constraint_exact.
    repeat match goal with |- _ /\ _ => split end; red; intros s R; destruct (cfc_inv s R) as [Hc [B1 B2]];
      destruct s as [c' w]; simpl in Hc; subst c'; unfold disjoint3 in D; intros; simpl in *.
    - rows i. unfold cfc_value, force_control_value. simpl. rewrite bump_fun. unfold vset, seg; simpl. reflexivity.
    - split; [zout|]. intros i k Hi. eapply partial_eq.
      { unfold cfc_value; simpl. apply cfc_jacobian; auto. }
      unfold cfc_J, cfc_pz, cfc_fz, seg in *. rows i. unfold cfc_pz, cfc_fz in *. simpl in *. matrix_eq.
    - split; [zout|]. intros i k Hi. unfold cfc_value, force_control_value; simpl.
      eapply partial_eq. { deriv known. }
      rows i. unfold cfc_uz in *. matrix_eq.
    - split; [zout|]. unfold cfc_value; simpl. eapply weighted_hessian.
      { intros y. apply cfc_jacobian. }
      intros j k. simpl. unfold cfc_J. eapply partial_eq. { deriv known. }
      unfold cfc_pz, cfc_fz, seg in *. simpl in *. matrix_eq.
    - split; [auto|]. unfold cfc_value, force_control_value; simpl. apply weighted_hessian with (J := fun _ _ j => ind (cfc_ctrl c + 2) j).
      { intros y i k Hi. eapply partial_eq. { deriv known. } ring. }
      intros j k. simpl. eapply partial_eq. { deriv known. } matrix_eq.
    - split; [auto|]. unfold cfc_value; simpl. eapply weighted_mixed.
      { intros y z. apply cfc_jacobian. }
      intros j k. simpl. unfold cfc_J. eapply partial_eq. { deriv known. } matrix_eq.
    - auto 10.
  Qed.
End CFC.

(** Common start of the exactness proofs. *)
Ltac start_exact inv :=
  unfold constraint_exact;
  repeat match goal with |- _ /\ _ => split end;
  let s := fresh "s" in let R := fresh "R" in let Hc := fresh "Hc" in
  red; intros s R; pose proof (inv s R) as Hc;
  let c' := fresh "cf" in let w := fresh "w" in
  destruct s as [c' w]; simpl in Hc; unfold disjoint3 in *; intros; unpack; simpl in *; subst.

Ltac inv_step :=
  intros [c' w] ? ? ?; try intros ?; try intros ?; intros; unpack; simpl in *; unfold buf_ok in *; unpack; simpl in *;
  repeat match goal with |- _ /\ _ => split end; auto.

(** ** ContactFrictionConstraint *)
Section FR.
  Variable o : nat.
  Variables x0 u0 : vec.
  Let ok := reach fr_class fr_other (fr_ctor o x0 u0).

  Lemma fr_inv s : ok s -> fr_force (fst s) = o /\ 0 < fr_mu (fst s).
  Proof.
    unfold ok. revert s. apply reach_inv.
    - simpl. split; auto. lra.
    - inv_step.
    - inv_step.
    - inv_step.
    - inv_step.
    - inv_step.
    - inv_step.
    - intros s s' [? ?] [mu ->]. unfold fr_setFrictionCoefficient. destruct (Rle_dec mu 0); simpl; auto. split; auto. lra.
  Qed.

  Definition fr_J mu a b d (y : vec) : mat := fun _ j => 2 * y a * ind a j + 2 * y b * ind b j - 2 * mu * mu * y d * ind d j.
  Lemma fr_jacobian mu a b d y : is_jacobian 1 (fun y => friction_value mu a b d y) y (fr_J mu a b d y).
  Proof.
    intros i j Hi. unfold friction_value. eapply partial_eq. { deriv known. }
    unfold fr_J, ind. simpl. eqbs; ring.
  Qed.

  Theorem fr_exact : constraint_exact fr_class ok 1 fr_value fr_patterns.
  Proof.
    start_exact fr_inv.
    - rows i. unfold fr_value, friction_value, vset, seg; simpl. rewrite Nat.add_0_r. ring.
    - split; [unfold dense_block, seg in *; simpl in *; rewrite Nat.add_0_r in *; zout|].
      intros i k Hi. eapply partial_eq. { unfold fr_value; simpl. apply fr_jacobian; auto. }
      unfold fr_J, seg in *. rows i. rewrite ?Nat.add_0_r in *. matrix_eq.
    - split; [auto|]. intros i k Hi. unfold fr_value, friction_value; simpl. eapply partial_eq. { deriv known. }
      matrix_eq.
    - split; [unfold identity_block, seg in *; simpl in *; rewrite Nat.add_0_r in *; zout|].
      unfold fr_value; simpl. eapply weighted_hessian. { intros y. apply fr_jacobian. }
      intros j k. simpl. unfold fr_J. eapply partial_eq. { deriv known. }
      rewrite ?Nat.add_0_r in *. matrix_eq.
    - split; [auto|]. unfold fr_value, friction_value; simpl. apply weighted_hessian with (J := fun _ => mzero).
      { intros y i k Hi. eapply partial_eq. { deriv known. } unfold mzero; ring. }
      intros j k. simpl. unfold mzero. eapply partial_eq. { deriv known. } matrix_eq.
    - split; [auto|]. unfold fr_value; simpl. eapply weighted_mixed. { intros y z. apply fr_jacobian. }
      intros j k. simpl. unfold fr_J. eapply partial_eq. { deriv known. } matrix_eq.
    - auto 10.
  Qed.
End FR.

(** ** NormalVelocityControlConstraints *)
Section NV.
  Variable c : nv_cfg.
  Variables x0 u0 : vec.
  Let ok := reach nv_class no_other (nv_ctor c x0 u0).

  Lemma nv_inv s : ok s -> fst s = c /\ buf_ok (nv_patterns s) (snd s) /\ zero_outside [(1%nat, nv_pz (fst s))] (w_sj (snd s)).
  Proof.
    unfold ok. revert s. apply reach_inv.
    - split; [reflexivity|split; [apply buf_ok_init | intros ? ? ?; reflexivity]].
    - inv_step.
    - inv_step; zout.
    - inv_step; zout.
    - inv_step.
    - inv_step.
    - inv_step.
    - intros ? ? ? [].
  Qed.

  Definition nv_J a M pz (y : vec) : mat := fun i j =>
    match i with O => 0 | _ => ht_deriv a (y pz) * M * ind pz j end.
  Lemma nv_jacobian a M pz vz u y :
    is_jacobian 2 (fun y => normal_velocity_value (smooth_step (sm_K a) (disabled_of a)) M pz vz y u) y (nv_J a M pz y).
  Proof.
    rewrite step_fun. intros i j Hi. unfold normal_velocity_value, nv_J. rows i; (eapply partial_eq; [ deriv known | unfold ind; eqbs; ring ]).
  Qed.

  Theorem nv_exact : constraint_exact nv_class ok 2 nv_value nv_patterns.
  Proof.
    start_exact nv_inv; unfold nv_pz, nv_vz in *; match goal with B : buf_ok _ _ |- _ => destruct B as [B1 B2]; simpl in B1, B2; unfold nv_pz, nv_vz in * end; rewrite ?Nat.add_0_r in *.
    - unfold nv_value; simpl. rewrite step_fun. rows i; unfold normal_velocity_value, vset, seg; simpl; ring.
    - split; [zout|]. intros i k Hi. eapply partial_eq. { unfold nv_value; simpl. apply nv_jacobian; auto. }
      unfold nv_J, seg in *. rows i; matrix_eq.
    - split; [zout|]. intros i k Hi. unfold nv_value, normal_velocity_value; simpl.
      rows i; (eapply partial_eq; [ deriv known | matrix_eq ]).
    - split; [zout|]. unfold nv_value; simpl. eapply weighted_hessian. { intros y. apply nv_jacobian. }
      intros j k. simpl. eapply partial_eq. { deriv known. } unfold seg in *. matrix_eq.
    - split; [auto|]. unfold nv_value, normal_velocity_value; simpl.
      apply weighted_hessian with (J := fun _ i j => match i with O => - ind (nv_vel c + 2) j | _ => ind (nv_vel c + 2) j end).
      { intros y i k Hi. rows i; (eapply partial_eq; [ deriv known | matrix_eq ]). }
      intros j k. simpl. eapply partial_eq. { deriv known. } matrix_eq.
    - split; [auto|]. unfold nv_value; simpl. eapply weighted_mixed. { intros y z. apply nv_jacobian. }
      intros j k. simpl. eapply partial_eq. { deriv known. } matrix_eq.
    - auto 10.
  Qed.
End NV.

(** ** PlanarVelocityControlConstraints *)
Section PV.
  Variable c : pv_cfg.
  Variables x0 u0 : vec.
  Let ok := reach pv_class no_other (pv_ctor c x0 u0).

  Lemma pv_inv s : ok s -> fst s = c /\ buf_ok (pv_patterns s) (snd s).
  Proof.
    unfold ok. revert s. apply reach_inv.
    - split; [reflexivity|apply buf_ok_init].
    - inv_step.
    - inv_step; zout.
    - inv_step. rewrite ?Nat.add_0_r in *. zout.
    - inv_step.
    - inv_step.
    - inv_step.
    - intros ? ? ? [].
  Qed.

  Definition pv_J a Mx My pz (y : vec) : mat := fun i j =>
    match i with 0%nat | 2%nat => ht_deriv a (y pz) * Mx * ind pz j | _ => ht_deriv a (y pz) * My * ind pz j end.
  Lemma pv_jacobian a Mx My pz vx vy u y :
    is_jacobian 4 (fun y => planar_velocity_value (smooth_step (sm_K a) (disabled_of a)) Mx My pz vx vy y u) y (pv_J a Mx My pz y).
  Proof.
    rewrite step_fun. intros i j Hi. unfold planar_velocity_value, pv_J. rows i; (eapply partial_eq; [ deriv known | unfold ind; eqbs; ring ]).
  Qed.

  Ltac pv_start := start_exact pv_inv; unfold pv_pz in *; match goal with B : buf_ok _ _ |- _ => destruct B as [B1 B2]; simpl in B1, B2; unfold pv_pz in * end; rewrite ?Nat.add_0_r in *.

  (** Everything except the state Hessian is exact. *)
  Theorem pv_exact_partial :
    eval_correct pv_class ok 4 pv_value /\
    state_jacobian_exact pv_class ok 4 pv_value (fun s => p_sjac (pv_patterns s)) /\
    control_jacobian_exact pv_class ok 4 pv_value (fun s => p_cjac (pv_patterns s)) /\
    control_hessian_exact pv_class ok 4 pv_value (fun s => p_chess (pv_patterns s)) /\
    mixed_hessian_exact pv_class ok 4 pv_value (fun s => p_mhess (pv_patterns s)) /\
    methods_keep_value pv_class ok pv_value.
  Proof.
    pv_start.
    - unfold pv_value; simpl. rewrite step_fun. rows i; unfold planar_velocity_value, vset, seg; simpl; rewrite ?Nat.add_0_r; ring.
    - split; [zout|]. intros i k Hi. eapply partial_eq. { unfold pv_value; simpl. apply pv_jacobian; auto. }
      unfold pv_J, seg in *. rows i; matrix_eq.
    - split; [zout|]. intros i k Hi. unfold pv_value, planar_velocity_value; simpl.
      rows i; (eapply partial_eq; [ deriv known | matrix_eq ]).
    - split; [auto|]. unfold pv_value, planar_velocity_value; simpl.
      apply weighted_hessian with (J := fun _ i j => match i with 0%nat => - ind (pv_vel c) j | 1%nat => - ind (pv_vel c + 1) j
         | 2%nat => ind (pv_vel c) j | _ => ind (pv_vel c + 1) j end).
      { intros y i k Hi. rows i; (eapply partial_eq; [ deriv known | matrix_eq ]). }
      intros j k. simpl. eapply partial_eq. { deriv known. } matrix_eq.
    - split; [auto|]. unfold pv_value; simpl. eapply weighted_mixed. { intros y z. apply pv_jacobian. }
      intros j k. simpl. eapply partial_eq. { deriv known. } matrix_eq.
    - auto 10.
  Qed.

  (** The Hessian is right when it is computed right after another method was
      called with the same state and the multipliers/limits are such that
      l1 Mx + l2 My = l2 Mx + l1 My. *)
  Theorem pv_hessian_when : forall s, ok s -> forall t x u l H,
    zero_outside (p_shess (pv_patterns s)) H ->
    w_pos (snd s) 2%nat = x (pv_pos c + 2)%nat ->
    l 1%nat * pv_mx c + l 2%nat * pv_my c = l 2%nat * pv_mx c + l 1%nat * pv_my c ->
    let H' := snd (c_shess pv_class s t x u l H) in
    zero_outside (p_shess (pv_patterns s)) H' /\
    is_hessian (fun y => weighted 4 l (pv_value s t y u)) x H'.
  Proof.
    intros s R. destruct (pv_inv s R) as [Hc _]. destruct s as [c' w]. simpl in Hc; subst c'. intros t x u l H Z Hp Hl. simpl in *.
    split; [zout|]. unfold pv_value; simpl. eapply weighted_hessian. { intros y. apply pv_jacobian. }
    intros j k. simpl. eapply partial_eq. { deriv known. } unfold pv_pz in *. rewrite Hp.
    unfold ind, mset; eqbs; simpl; try subst; zero_entry; try ring.
    match goal with |- _ = _ * ?d => set (D := d) end.
    replace (((l 0%nat + l 1%nat) * pv_mx c + (l 2%nat + l 3%nat) * pv_my c))
      with ((l 0%nat + l 2%nat) * pv_mx c + (l 1%nat + l 3%nat) * pv_my c) by lra. ring.
  Qed.
End PV.

(** ** Complementarity *)
Section CC.
  Variable c : cc_cfg.
  Variables x0 u0 : vec.
  Hypothesis D : disjoint3 (cc_pos c) (cc_force c).
  Let ok := reach cc_class no_other (cc_ctor c x0 u0).

  Lemma cc_inv s : ok s -> fst s = c /\ buf_ok (cc_patterns s) (snd s).
  Proof.
    unfold ok. revert s. apply reach_inv.
    - split; [reflexivity|apply buf_ok_init].
    - inv_step.
    - inv_step; zout.
    - inv_step; zout.
    - inv_step.
    - inv_step.
    - inv_step.
    - intros ? ? ? [].
  Qed.
  Definition cc_J pz fz (y : vec) : mat := fun _ j => y fz * ind pz j + y pz * ind fz j.
  Lemma cc_jacobian pz fz y : is_jacobian 1 (fun y => complementarity_value pz fz y) y (cc_J pz fz y).
  Proof. intros i j Hi. unfold complementarity_value, cc_J. eapply partial_eq. { deriv known. } unfold ind; eqbs; ring. Qed.

  Theorem cc_exact : constraint_exact cc_class ok 1 cc_value cc_patterns.
  Proof.
    start_exact cc_inv; unfold cc_pz, cc_fz in *; match goal with B : buf_ok _ _ |- _ => destruct B as [B1 B2]; simpl in B1, B2; unfold cc_pz, cc_fz in * end.
    - rows i. reflexivity.
    - split; [zout|]. intros i k Hi. eapply partial_eq. { unfold cc_value; simpl. apply cc_jacobian; auto. }
      unfold cc_J, seg in *. rows i; matrix_eq.
    - split; [auto|]. intros i k Hi. unfold cc_value, complementarity_value; simpl. eapply partial_eq; [ deriv known | matrix_eq ].
    - split; [zout|]. unfold cc_value; simpl. eapply weighted_hessian. { intros y. apply cc_jacobian. }
      intros j k. simpl. unfold cc_J. eapply partial_eq. { deriv known. } matrix_eq.
    - split; [auto|]. unfold cc_value, complementarity_value; simpl.
      apply weighted_hessian with (J := fun _ => mzero).
      { intros y i k Hi. eapply partial_eq; [ deriv known | matrix_eq ]. }
      intros j k. simpl. unfold mzero. eapply partial_eq. { deriv known. } matrix_eq.
    - split; [auto|]. unfold cc_value; simpl. eapply weighted_mixed. { intros y z. apply cc_jacobian. }
      intros j k. simpl. unfold cc_J. eapply partial_eq. { deriv known. } matrix_eq.
    - auto 10.
  Qed.
End CC.

Section CP.
  Variable c : cp_cfg.
  Variables x0 u0 : vec.
  Let ok := reach cp_class no_other (cp_ctor c x0 u0).

  Lemma cp_inv s : ok s -> fst s = c /\ buf_ok (cp_patterns s) (snd s).
  Proof.
    unfold ok. revert s. apply reach_inv.
    - split; [reflexivity|apply buf_ok_init].
    - inv_step.
    - inv_step; zout.
    - inv_step; zout.
    - inv_step.
    - inv_step.
    - inv_step.
    - intros ? ? ? [].
  Qed.
  Definition cp_J fz vx vy (y u : vec) : mat := fun i j => match i with O => u vx * ind fz j | _ => u vy * ind fz j end.
  Lemma cp_jacobian fz vx vy u y : is_jacobian 2 (fun y => planar_complementarity_value fz vx vy y u) y (cp_J fz vx vy y u).
  Proof. intros i j Hi. unfold planar_complementarity_value, cp_J. rows i; (eapply partial_eq; [deriv known | unfold ind; eqbs; ring]). Qed.

  Theorem cp_exact : constraint_exact cp_class ok 2 cp_value cp_patterns.
  Proof.
    start_exact cp_inv; unfold cp_fz, cp_vx, cp_vy in *; match goal with B : buf_ok _ _ |- _ => destruct B as [B1 B2]; simpl in B1, B2; unfold cp_fz, cp_vx, cp_vy in * end.
    - rows i; unfold cp_value, planar_complementarity_value, vset, seg; simpl; rewrite ?Nat.add_0_r; reflexivity.
    - split; [zout|]. intros i k Hi. eapply partial_eq. { unfold cp_value; simpl. apply cp_jacobian; auto. }
      unfold cp_J, seg in *. rows i; rewrite ?Nat.add_0_r in *; matrix_eq.
    - split; [zout|]. intros i k Hi. unfold cp_value, planar_complementarity_value, seg; simpl.
      rows i; (eapply partial_eq; [ deriv known | matrix_eq ]).
    - split; [auto|]. unfold cp_value; simpl. eapply weighted_hessian. { intros y. apply cp_jacobian. }
      intros j k. simpl. unfold cp_J. eapply partial_eq. { deriv known. } matrix_eq.
    - split; [auto|]. unfold cp_value, planar_complementarity_value; simpl.
      apply weighted_hessian with (J := fun _ i j => match i with O => x (cp_force c + 2)%nat * ind (cp_vel c) j | _ => x (cp_force c + 2)%nat * ind (cp_vel c + 1) j end).
      { intros y i k Hi. rows i; (eapply partial_eq; [ deriv known | matrix_eq ]). }
      intros j k. simpl. eapply partial_eq. { deriv known. } matrix_eq.
    - split; [zout|]. unfold cp_value; simpl. eapply weighted_mixed. { intros y z. apply cp_jacobian. }
      intros j k. simpl. eapply partial_eq. { deriv known. } matrix_eq.
    - auto 10.
  Qed.
End CP.

Section DC.
  Variable c : dc_cfg.
  Variables x0 u0 : vec.
  Hypothesis D : disjoint3 (dc_pos c) (dc_force c).
  Hypothesis Du : disjoint3 (dc_vel c) (dc_fctl c).
  Let ok := reach dc_class no_other (dc_ctor c x0 u0).

  Lemma dc_inv s : ok s -> fst s = c /\ buf_ok (dc_patterns s) (snd s).
  Proof.
    unfold ok. revert s. apply reach_inv.
    - split; [reflexivity|apply buf_ok_init].
    - inv_step.
    - inv_step; zout.
    - inv_step; zout.
    - inv_step.
    - inv_step.
    - inv_step.
    - intros ? ? ? [].
  Qed.
  Definition dc_J k pz fz vz wz (y u : vec) : mat := fun _ j =>
     (u wz + k * y fz) * ind pz j + (u vz + k * y pz) * ind fz j.
  Lemma dc_jacobian k pz fz vz wz u y :
    is_jacobian 1 (fun y => dynamical_complementarity_value k pz fz vz wz y u) y (dc_J k pz fz vz wz y u).
  Proof. intros i j Hi. unfold dynamical_complementarity_value, dc_J. eapply partial_eq; [deriv known | unfold ind; eqbs; ring]. Qed.

  Theorem dc_exact : constraint_exact dc_class ok 1 dc_value dc_patterns.
  Proof.
    start_exact dc_inv; unfold dc_pz, dc_fz, dc_vz, dc_fzdot in *; match goal with B : buf_ok _ _ |- _ => destruct B as [B1 B2]; simpl in B1, B2; unfold dc_pz, dc_fz, dc_vz, dc_fzdot in * end.
    - rows i; unfold dc_value, dynamical_complementarity_value, vset, seg; simpl; ring.
    - split; [zout|]. intros i k Hi. eapply partial_eq. { unfold dc_value; simpl. apply dc_jacobian; auto. }
      unfold dc_J, seg in *. rows i; matrix_eq.
    - split; [zout|]. intros i k Hi. unfold dc_value, dynamical_complementarity_value, seg; simpl.
      rows i; (eapply partial_eq; [ deriv known | matrix_eq ]).
    - split; [zout|]. unfold dc_value; simpl. eapply weighted_hessian. { intros y. apply dc_jacobian. }
      intros j k. simpl. unfold dc_J. eapply partial_eq. { deriv known. } matrix_eq.
    - split; [auto|]. unfold dc_value, dynamical_complementarity_value; simpl.
      apply weighted_hessian with (J := fun _ _ j => x (dc_force c + 2)%nat * ind (dc_vel c + 2) j + x (dc_pos c + 2)%nat * ind (dc_fctl c + 2) j).
      { intros y i k Hi. rows i; (eapply partial_eq; [ deriv known | matrix_eq ]). }
      intros j k. simpl. eapply partial_eq. { deriv known. } matrix_eq.
    - split; [zout|]. unfold dc_value; simpl. eapply weighted_mixed. { intros y z. apply dc_jacobian. }
      intros j k. simpl. unfold dc_J. eapply partial_eq. { deriv known. } matrix_eq.
    - auto 10.
  Qed.
End DC.

(** ** QuaternionNormConstraint *)
Section QN.
  Variable o : nat.
  Variables x0 u0 : vec.
  Let ok := reach qn_class qn_other (qn_ctor o x0 u0).

  Lemma qn_inv s : ok s -> qn_off (fst s) = o /\ buf_ok (qn_patterns s) (snd s).
  Proof.
    unfold ok. revert s. apply reach_inv.
    - split; [reflexivity|apply buf_ok_init].
    - inv_step.
    - inv_step; rewrite ?Nat.add_0_r in *; zout.
    - inv_step; zout.
    - inv_step.
    - inv_step.
    - inv_step.
    - intros s s' [? ?] [tol ->]. split; auto.
  Qed.
  Definition qn_J o (y : vec) : mat := fun _ j =>
    2 * y o * ind o j + 2 * y (o+1)%nat * ind (o+1) j + 2 * y (o+2)%nat * ind (o+2) j + 2 * y (o+3)%nat * ind (o+3) j.
  Lemma qn_jacobian p y : is_jacobian 1 (fun y => quaternion_norm_value p y) y (qn_J p y).
  Proof. intros i j Hi. unfold quaternion_norm_value, qn_J. eapply partial_eq; [deriv known | unfold ind; simpl; eqbs; ring]. Qed.

  Theorem qn_exact : constraint_exact qn_class ok 1 qn_value qn_patterns.
  Proof.
    start_exact qn_inv; match goal with B : buf_ok _ _ |- _ => destruct B as [B1 B2]; simpl in B1, B2 end; rewrite ?Nat.add_0_r in *.
    - rows i; unfold qn_value, quaternion_norm_value, vset, seg, quat_sqnorm; simpl; rewrite ?Nat.add_0_r; ring.
    - split; [zout|]. intros i k Hi. eapply partial_eq. { unfold qn_value; simpl. apply qn_jacobian; auto. }
      unfold qn_J, seg in *. rows i; rewrite ?Nat.add_0_r; matrix_eq.
    - split; [auto|]. intros i k Hi. unfold qn_value, quaternion_norm_value, seg; simpl.
      rows i; (eapply partial_eq; [ deriv known | matrix_eq ]).
    - split; [zout|]. unfold qn_value; simpl. eapply weighted_hessian. { intros y. apply qn_jacobian. }
      intros j k. simpl. unfold qn_J. eapply partial_eq. { deriv known. } matrix_eq.
    - split; [auto|]. unfold qn_value, quaternion_norm_value; simpl.
      apply weighted_hessian with (J := fun _ => mzero).
      { intros y i k Hi. rows i; (eapply partial_eq; [ deriv known | matrix_eq ]). }
      intros j k. simpl. unfold mzero. eapply partial_eq. { deriv known. } matrix_eq.
    - split; [auto|]. unfold qn_value; simpl. eapply weighted_mixed. { intros y z. apply qn_jacobian. }
      intros j k. simpl. unfold qn_J. eapply partial_eq. { deriv known. } matrix_eq.
    - auto 10.
  Qed.
End QN.
