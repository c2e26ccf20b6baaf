From Coq Require Import Reals List Arith Lia Lra Bool FunctionalExtensionality.
From Coquelicot Require Import Coquelicot.
From Verif Require Import Spec SpecConstraints SpecCosts Smoothing ConstraintsModel ConstraintStatements
  CostsModel CostStatements SmoothingProofs PartialLib QuadLib ConstraintProofs.
Import ListNotations.
Local Open Scope R_scope.

(** Close a [vzero_outside sup (vset ...)] goal. *)
Ltac vzout :=
  let k := fresh "k" in let N := fresh "N" in
  intros k N; unfold vset; simpl in *; rewrite ?Nat.add_0_r in *;
  repeat (match goal with
  | |- context [Nat.eqb ?a ?b] => destruct (Nat.eqb_spec a b)
  end; simpl);
  try reflexivity;
  try (exfalso; apply N; simpl; subst; auto 10; fail);
  try (match goal with Z : vzero_outside _ ?M |- ?M _ = 0 => apply Z; simpl; rewrite ?Nat.add_0_r; auto end).

Ltac vector_eq :=
  unfold ind, vset, vzero; eqbs; simpl; try subst; zero_entry; try ring; try (field_simplify; lra).

Ltac kstart inv :=
  unfold cost_exact;
  repeat match goal with |- _ /\ _ => split end;
  let s := fresh "s" in let R := fresh "R" in let Hc := fresh "Hc" in
  red; intros s R; pose proof (inv s R) as Hc;
  let c' := fresh "cf" in let w := fresh "w" in
  destruct s as [c' w]; simpl in Hc; unfold disjoint3 in *; intros; unpack; simpl in *; subst.
Ltac kstart_ns inv :=
  unfold cost_exact;
  repeat match goal with |- _ /\ _ => split end;
  let s := fresh "s" in let R := fresh "R" in let Hc := fresh "Hc" in
  red; intros s R; pose proof (inv s R) as Hc;
  let c' := fresh "cf" in let w := fresh "w" in
  destruct s as [c' w]; simpl in Hc; intros; unpack; simpl in *.
Ltac kstep :=
  intros [c' w] ? ? ?; try intros ?; intros; unpack; simpl in *;
  repeat match goal with |- _ /\ _ => split end; auto.
Ltac give := eexists; split; [reflexivity|].

Section SW.
  Variable c : sw_cfg.
  Variables x0 u0 : vec.
  Let ok := kreach sw_class no_other (sw_ctor c x0 u0).
  Lemma sw_inv s : ok s -> fst s = c /\ vzero_outside (q_sgrad (sw_sup s)) (k_sg (snd s)) /\ vzero_outside (q_cgrad (sw_sup s)) (k_cg (snd s)).
  Proof.
    unfold ok. revert s. apply kreach_inv.
    - repeat split; intros k _; reflexivity.
    - kstep.
    - kstep; vzout.
    - kstep; vzout.
    - kstep.
    - kstep.
    - kstep.
    - intros ? ? ? [].
  Qed.
  Definition sw_G (w : vec) h p a b d (x u : vec) : vec := fun k =>
    (w 0%nat * (u a)^2 + w 1%nat * (u b)^2 + w 2%nat * (u d)^2) * (x p - h) * ind p k.
  Lemma sw_grad w h p a b d x u : is_gradient (fun y => swing_value w h p a b d y u) x (sw_G w h p a b d x u).
  Proof. intros k. unfold swing_value. eapply partial_eq. { deriv known. } unfold sw_G. simpl. field. Qed.
  Definition sw_GU (w : vec) h p a b d (x u : vec) : vec := fun k =>
    (x p - h)^2 * (w 0%nat * u a * ind a k + w 1%nat * u b * ind b k + w 2%nat * u d * ind d k).
  Lemma sw_gradu w h p a b d x u : is_gradient (fun v => swing_value w h p a b d x v) u (sw_GU w h p a b d x u).
  Proof. intros k. unfold swing_value. eapply partial_eq. { deriv known. } unfold sw_GU. simpl. field. Qed.

  Theorem sw_exact : cost_exact sw_class ok always_valid sw_value sw_sup.
  Proof.
    kstart sw_inv.
    - f_equal. unfold sw_value, swing_value, seg; simpl. rewrite Nat.add_0_r. ring.
    - give. split; [vzout|]. eapply gradient_eq; [|unfold sw_value; apply sw_grad].
      intros k. unfold sw_G, seg; simpl. rewrite ?Nat.add_0_r. vector_eq.
    - give. split; [vzout|]. eapply gradient_eq; [|unfold sw_value; apply sw_gradu].
      intros k. unfold sw_GU, seg; simpl. rewrite ?Nat.add_0_r. vector_eq.
    - give. split; [zout|]. exists (fun y => sw_G (sw_w c) (sw_h c) (sw_pos c + 2) (sw_vel c) (sw_vel c + 1) (sw_vel c + 2) y u).
      split. { intros y. unfold sw_value; apply sw_grad. }
      intros j k. unfold sw_G. eapply partial_eq. { deriv known. } unfold seg; simpl. rewrite ?Nat.add_0_r in *. matrix_eq.
    - give. split; [unfold identity_block in *; simpl in *; rewrite ?Nat.add_0_r in *; zout|].
      exists (fun v => sw_GU (sw_w c) (sw_h c) (sw_pos c + 2) (sw_vel c) (sw_vel c + 1) (sw_vel c + 2) x v).
      split. { intros y. unfold sw_value; apply sw_gradu. }
      intros j k. unfold sw_GU. eapply partial_eq. { deriv known. } unfold seg, identity_block in *; simpl in *. rewrite ?Nat.add_0_r in *. matrix_eq.
    - give. split; [unfold dense_block in *; simpl in *; rewrite ?Nat.add_0_r in *; zout|].
      exists (fun y v => sw_G (sw_w c) (sw_h c) (sw_pos c + 2) (sw_vel c) (sw_vel c + 1) (sw_vel c + 2) y v).
      split. { intros y v. unfold sw_value; apply sw_grad. }
      intros j k. unfold sw_G. eapply partial_eq. { deriv known. } unfold seg, dense_block in *; simpl in *. rewrite ?Nat.add_0_r in *. matrix_eq.
    - auto 10.
  Qed.
End SW.

Section KC.
  Variable c : kc_cfg.
  Variables x0 u0 : vec.
  Let ok := kreach kc_class no_other (kc_ctor c x0 u0).
  Lemma kc_inv s : ok s -> fst s = c.
  Proof.
    unfold ok. revert s. apply kreach_inv; [reflexivity|kstep|kstep|kstep|kstep|kstep|kstep|intros ? ? ? []].
  Qed.
  Lemma kc_grad f v x u : is_gradient (fun y => complementarity_cost_value f v y u) x (fun k => (u v)^2 * x f * ind f k).
  Proof. intros k. unfold complementarity_cost_value. eapply partial_eq. { deriv known. } simpl. field. Qed.
  Lemma kc_gradu f v x u : is_gradient (fun w => complementarity_cost_value f v x w) u (fun k => (x f)^2 * u v * ind v k).
  Proof. intros k. unfold complementarity_cost_value. eapply partial_eq. { deriv known. } simpl. field. Qed.
  Theorem kc_exact : cost_exact kc_class ok always_valid kc_value kc_sup.
  Proof.
    kstart kc_inv.
    - f_equal. unfold kc_value, complementarity_cost_value, seg; simpl. ring.
    - give. unfold kc_fz, kc_vz in *. split; [vzout|]. eapply gradient_eq; [|unfold kc_value; apply kc_grad].
      intros k. unfold seg; simpl. vector_eq.
    - give. unfold kc_fz, kc_vz in *. split; [vzout|]. eapply gradient_eq; [|unfold kc_value; apply kc_gradu].
      intros k. unfold seg; simpl. vector_eq.
    - give. unfold kc_fz, kc_vz in *. split; [zout|]. eexists. split. { intros y. unfold kc_value. apply kc_grad. }
      intros j k. eapply partial_eq. { deriv known. } unfold seg; simpl. matrix_eq.
    - give. unfold kc_fz, kc_vz in *. split; [zout|]. eexists. split. { intros y. unfold kc_value. apply kc_gradu. }
      intros j k. eapply partial_eq. { deriv known. } unfold seg; simpl. matrix_eq.
    - give. unfold kc_fz, kc_vz in *. split; [zout|]. eexists. split. { intros y w'. unfold kc_value. apply kc_grad. }
      intros j k. eapply partial_eq. { deriv known. } unfold seg; simpl. matrix_eq.
    - auto 10.
  Qed.
End KC.

Section PH.
  Variable c : ph_cfg.
  Variables x0 u0 : vec.
  Hypothesis D : disjoint3 (ph_pos c) (ph_force c).
  Let ok := kreach ph_class no_other (ph_ctor c x0 u0).
  Lemma ph_inv s : ok s -> fst s = c /\ vzero_outside (q_sgrad (ph_sup s)) (k_sg (snd s)) /\ k_cg (snd s) = vzero.
  Proof.
    unfold ok. revert s. apply kreach_inv.
    - repeat split; intros k _; reflexivity.
    - kstep.
    - kstep; vzout.
    - kstep.
    - kstep.
    - kstep.
    - kstep.
    - intros ? ? ? [].
  Qed.
  Definition ph_G (a : smoothing) p f (x : vec) : vec := fun k =>
    - ((1 - hs_eval a (x p)) * x f) * hs_deriv a (x p) * x f * ind p k + (1 - hs_eval a (x p)) * x f * (1 - hs_eval a (x p)) * ind f k.
  Lemma ph_grad a p f x : is_gradient (fun y => phantom_value (smooth_bump (sm_K a) (disabled_of a)) p f y) x (ph_G a p f x).
  Proof. intros k. rewrite bump_fun. unfold phantom_value. eapply partial_eq. { deriv known. } unfold ph_G. simpl. field. Qed.
  Lemma ph_grad_partial a p f x j k : partial (fun y => ph_G a p f y j) x k
    ( ind p j * ((hs_deriv a (x p) * x f)^2 - (1 - hs_eval a (x p)) * x f * hs_dderiv a (x p) * x f) * ind p k
     - 2 * (1 - hs_eval a (x p)) * x f * hs_deriv a (x p) * (ind p j * ind f k + ind f j * ind p k)
     + (1 - hs_eval a (x p))^2 * ind f j * ind f k).
  Proof. unfold ph_G. eapply partial_eq. { deriv known. } cbv beta; ring. Qed.

  Theorem ph_exact_partial :
    cost_value_correct ph_class ok always_valid ph_value /\
    state_gradient_exact ph_class ok always_valid ph_value (fun s => q_sgrad (ph_sup s)) /\
    control_gradient_exact ph_class ok always_valid ph_value (fun s => q_cgrad (ph_sup s)) /\
    cost_control_hessian_exact ph_class ok always_valid ph_value (fun s => q_chess (ph_sup s)) /\
    cost_mixed_hessian_exact ph_class ok always_valid ph_value (fun s => q_mhess (ph_sup s)) /\
    cost_methods_keep_value ph_class ok ph_value.
  Proof.
    kstart ph_inv.
    - f_equal. unfold ph_value, phantom_value, seg; simpl. rewrite bump_fun. ring.
    - give. split; [vzout|]. eapply gradient_eq; [|unfold ph_value; apply ph_grad].
      intros k. unfold ph_G, seg; simpl. vector_eq.
    - unfold buffer_cgrad; simpl. give. match goal with H : k_cg _ = _ |- _ => rewrite H end.
      split; [intros k _; reflexivity|]. unfold ph_value; simpl. apply gradient_const.
    - give. split; [auto|]. unfold ph_value; simpl. eapply hessian_eq; [|apply hessian_const].
      intros i j. unfold mzero. symmetry. match goal with H : zero_outside _ _ |- _ => apply H end. simpl; tauto.
    - give. split; [auto|]. unfold ph_value; simpl.
      exists (fun y _ => ph_G (ph_act c) (ph_pos c + 2) (ph_force c + 2) y).
      split. { intros y v. apply ph_grad. }
      intros j k. eapply partial_eq; [apply partial_const|]. symmetry.
      match goal with H : zero_outside _ _ |- _ => apply H end. simpl; tauto.
    - auto 10.
  Qed.

  (** The state Hessian is right where the missing factor does not matter. *)
  Theorem ph_hessian_when s : ok s -> forall t x u H, zero_outside (q_shess (ph_sup s)) H ->
    let fz := x (ph_force c + 2)%nat in
    (fz = 0 \/ fz = 1 \/ hs_eval (ph_act c) (x (ph_pos c + 2)%nat) = 1 \/ hs_dderiv (ph_act c) (x (ph_pos c + 2)%nat) = 0) ->
    exists H', snd (ph_shess s t x u H) = Some H' /\ zero_outside (q_shess (ph_sup s)) H' /\ is_hessian (fun y => ph_value s t y u) x H'.
  Proof.
    intros R t x u H Z fz W. pose proof (ph_inv s R) as I. destruct s as [c' w]. simpl in *. destruct I as [-> I].
    unfold disjoint3 in D. give. split; [zout|].
    exists (ph_G (ph_act c) (ph_pos c + 2) (ph_force c + 2)). split. { intros y. apply ph_grad. }
    intros j k. eapply partial_eq; [apply ph_grad_partial|].
    assert (E : (1 - hs_eval (ph_act c) (x (ph_pos c + 2)%nat)) * x (ph_force c + 2)%nat * hs_dderiv (ph_act c) (x (ph_pos c + 2)%nat) * x (ph_force c + 2)%nat
       = (1 - hs_eval (ph_act c) (x (ph_pos c + 2)%nat)) * x (ph_force c + 2)%nat * hs_dderiv (ph_act c) (x (ph_pos c + 2)%nat)).
    { unfold fz in W. destruct W as [E|[E|[E|E]]]; rewrite E; ring. }
    rewrite E. unfold seg in *. matrix_eq.
  Qed.
End PH.
