From Coq Require Import Reals Lra.
From Coquelicot Require Import Coquelicot.
From Verif Require Import Spec SpecConstraints Smoothing ConstraintsModel ConstraintStatements.
Local Open Scope R_scope.

Ltac req := match goal with |- @eq _ ?a ?b => change (@eq R a b) end.

Lemma cosh_pos x : 0 < cosh x.
Proof. unfold cosh. generalize (exp_pos x) (exp_pos (-x)); lra. Qed.
Lemma cosh_neq0 x : cosh x <> 0.
Proof. apply Rgt_not_eq, cosh_pos. Qed.
Lemma cosh_sinh x : (cosh x)^2 - (sinh x)^2 = 1.
Proof.
  unfold cosh, sinh.
  assert (exp x * exp (-x) = 1) by (rewrite <- exp_plus, Rplus_opp_r, exp_0; reflexivity).
  nra.
Qed.
Lemma cosh_ge1 x : 1 <= cosh x.
Proof. generalize (cosh_sinh x) (cosh_pos x). intros. nra. Qed.
Lemma cosh_gt1 x : x <> 0 -> 1 < cosh x.
Proof.
  intros Hx. generalize (cosh_sinh x) (cosh_pos x). intros H1 H2.
  assert (sinh x <> 0).
  { unfold sinh. intro H. assert (exp x = exp (-x)) by lra.
    apply exp_inv in H0. lra. }
  assert (0 < sinh x ^ 2) by nra. nra.
Qed.

Lemma is_derive_cosh x : is_derive cosh x (sinh x).
Proof. unfold cosh, sinh. auto_derive; auto. lra. Qed.
Lemma is_derive_sinh x : is_derive sinh x (cosh x).
Proof. unfold cosh, sinh. auto_derive; auto. lra. Qed.
Lemma is_derive_tanh x : is_derive tanh x (/ (cosh x * cosh x)).
Proof.
  unfold tanh.
  evar_last.
  { apply is_derive_div. apply is_derive_sinh. apply is_derive_cosh. apply cosh_neq0. }
  generalize (cosh_sinh x) (cosh_neq0 x). intros H1 H2. simpl.
  replace (cosh x * cosh x - sinh x * sinh x) with (cosh x ^2 - sinh x^2) by ring.
  rewrite H1. field. auto.
Qed.

Lemma is_derive_comp_lin f K x d : is_derive f (K * x) d -> is_derive (fun z => f (K * z)) x (K * d).
Proof.
  intros H. evar_last.
  { apply (is_derive_comp f (fun z => K * z)). exact H. auto_derive; auto. }
  unfold scal; simpl; unfold mult; simpl. ring.
Qed.


Lemma ht_eval_value s z : ht_eval s z = smooth_step (sm_K s) (disabled_of s) z.
Proof. unfold ht_eval, smooth_step, disabled_of. destruct (sm_disabled s); auto. Qed.
Lemma hs_eval_value s z : hs_eval s z = smooth_bump (sm_K s) (disabled_of s) z.
Proof. unfold hs_eval, smooth_bump, disabled_of. destruct (sm_disabled s); auto. unfold Rdiv; ring. Qed.

Lemma ht_deriv_ok s z : is_derive (ht_eval s) z (ht_deriv s z).
Proof.
  unfold ht_eval, ht_deriv. destruct (sm_disabled s).
  - apply (is_derive_const (K:=R_AbsRing) (V:=R_NormedModule)).
  - evar_last. { apply is_derive_comp_lin, is_derive_tanh. }
    field. apply cosh_neq0.
Qed.

Lemma ht_dderiv_ok s z : is_derive (ht_deriv s) z (ht_dderiv s z).
Proof.
  unfold ht_deriv, ht_dderiv, ht_eval. destruct (sm_disabled s).
  - apply (is_derive_const (K:=R_AbsRing) (V:=R_NormedModule)).
  - cbv zeta. set (K := sm_K s).
    apply is_derive_ext with (fun y => (fun v => K * (/ cosh v * / cosh v)) (K * y)).
    { intros; req; unfold Rdiv; ring. }
    evar_last.
    { apply (is_derive_comp_lin (fun v => K * (/ cosh v * / cosh v))).
      apply is_derive_scal, (is_derive_mult (K:=R_AbsRing)).
      + apply is_derive_inv. apply is_derive_cosh. apply cosh_neq0.
      + apply is_derive_inv. apply is_derive_cosh. apply cosh_neq0.
      + intros; simpl; unfold mult; simpl; req; ring. }
    unfold plus, mult; simpl; unfold tanh. field. apply cosh_neq0.
Qed.

Lemma hs_deriv_ok s z : is_derive (hs_eval s) z (hs_deriv s z).
Proof.
  unfold hs_deriv, hs_eval. destruct (sm_disabled s).
  - apply (is_derive_const (K:=R_AbsRing) (V:=R_NormedModule)).
  - set (K := sm_K s).
    apply is_derive_ext with (fun y => (fun v => / cosh v) (K * y)).
    { intros; req; unfold Rdiv; ring. }
    evar_last.
    { apply (is_derive_comp_lin (fun v => / cosh v)). apply is_derive_inv. apply is_derive_cosh. apply cosh_neq0. }
    simpl; unfold tanh. field. apply cosh_neq0.
Qed.

Lemma hs_dderiv_ok s z : is_derive (hs_deriv s) z (hs_dderiv s z).
Proof.
  unfold hs_dderiv, hs_deriv, hs_eval. destruct (sm_disabled s).
  - apply (is_derive_const (K:=R_AbsRing) (V:=R_NormedModule)).
  - cbv zeta. set (K := sm_K s).
    apply is_derive_ext with (fun y => (fun v => (- K) * (/ cosh v * tanh v)) (K * y)).
    { intros; req; unfold Rdiv. ring. }
    evar_last.
    { apply (is_derive_comp_lin (fun v => (-K) * (/ cosh v * tanh v))).
      apply is_derive_scal, (is_derive_mult (K:=R_AbsRing)).
      + apply is_derive_inv. apply is_derive_cosh. apply cosh_neq0.
      + apply is_derive_tanh.
      + intros; simpl; unfold mult; simpl; req; ring. }
    unfold plus, mult; simpl; unfold tanh.
    generalize (cosh_sinh (K*z)) (cosh_neq0 (K*z)). intros H1 H2.
    replace (/ cosh (K*z) * / (cosh (K*z) * cosh (K*z))) with
       (/ cosh (K*z) * ((cosh (K*z)^2 - sinh (K*z)^2) / (cosh (K*z) * cosh (K*z)))) by (rewrite H1; field; auto).
    field. auto.
Qed.

Lemma tanh_bounds x : -1 < tanh x < 1.
Proof.
  unfold tanh. generalize (cosh_pos x). intros H.
  assert (- cosh x < sinh x < cosh x).
  { unfold cosh, sinh. generalize (exp_pos x) (exp_pos (-x)). lra. }
  split; apply Rmult_lt_reg_r with (cosh x); auto; unfold Rdiv; rewrite Rmult_assoc, Rinv_l, Rmult_1_r; lra.
Qed.
Lemma tanh_neg x : tanh (-x) = - tanh x.
Proof. unfold tanh, sinh, cosh. rewrite Ropp_involutive. field. generalize (exp_pos x) (exp_pos (-x)); lra. Qed.
Lemma tanh_increasing x y : x < y -> tanh x < tanh y.
Proof.
  intros H. apply (incr_function tanh m_infty p_infty (fun z => / (cosh z * cosh z))); simpl; auto.
  - intros; apply is_derive_tanh.
  - intros. apply Rlt_gt, Rinv_0_lt_compat. generalize (cosh_pos x0). nra.
Qed.
Lemma tanh_0 : tanh 0 = 0.
Proof. unfold tanh. rewrite sinh_0. unfold Rdiv. ring. Qed.
Lemma sech_bounds x : 0 < / cosh x <= 1.
Proof.
  generalize (cosh_ge1 x) (cosh_pos x). intros. split.
  - apply Rinv_0_lt_compat; auto.
  - rewrite <- Rinv_1. apply Rinv_le_contravar; lra.
Qed.
Lemma sech_max x : / cosh x = 1 -> x = 0.
Proof.
  intros H. destruct (Req_dec x 0); auto. apply cosh_gt1 in H0.
  assert (cosh x = 1). { rewrite <- (Rinv_inv (cosh x)), H. lra. }
  lra.
Qed.

Lemma scaling_and_disable : forall s K v z,
  ht_eval (smoothing_disable s v) z = v /\ hs_eval (smoothing_disable s v) z = v /\
  (sm_disabled s = false -> ht_eval (smoothing_setScaling s K) z = tanh (K * z)) /\
  (sm_disabled s = false -> hs_eval (smoothing_setScaling s K) z = 1 / cosh (K * z)) /\
  ht_eval smoothing_ctor z = tanh z /\ hs_eval smoothing_ctor z = 1 / cosh z.
Proof.
  intros. unfold ht_eval, hs_eval; simpl. rewrite Rmult_1_l. repeat split; auto; intros E; rewrite E; auto.
Qed.
