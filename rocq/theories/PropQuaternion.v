(** C08, C09, C10, C50: quaternion utilities. *)
From Coq Require Import Reals List Arith Lia Lra Bool.
From Coquelicot Require Import Coquelicot.
From Verif Require Import Spec SpecQuaternion PartialLib Quaternion QuaternionProofs.
From Verif Require SpecState Layout.
Local Open Scope R_scope.

(** A concrete non-unit quaternion and vector used to show hypotheses are met. *)
Definition q_ex : vec := fun i => match i with O => 3 | 1%nat => 0 | 2%nat => 4 | _ => 0 end.
Definition q_unit_ex : vec := fun i => match i with O => 3/5 | 1%nat => 0 | 2%nat => 4/5 | _ => 0 end.
Example q_ex_nonzero : exists i, (i < 4)%nat /\ q_ex i <> 0.
Proof. exists 2%nat. split; [lia | cbn; lra]. Qed.
Example q_unit_ex_unit : qnorm2 q_unit_ex = 1.
Proof. unfold qnorm2, q_unit_ex. field. Qed.

(** C08: a non-zero quaternion is normalised to a unit quaternion that is a
    positive multiple of it. *)
Theorem C08_normalised_is_unit : forall q, (exists i, (i < 4)%nat /\ q i <> 0) ->
  qnorm2 (NormalizedQuaternion q) = 1 /\
  exists c, 0 < c /\ forall i, (i < 4)%nat -> NormalizedQuaternion q i = c * q i.
Proof.
  intros q (i & Hi & Hq). pose proof (qnorm2_pos q i Hi Hq) as H. split.
  - apply Normalized_norm; auto.
  - exists (/ sqrt (qnorm2 q)). split; [apply Rinv_0_lt_compat, sqrt_lt_R0; auto|].
    intros j Hj. rewrite Normalized_eq by auto. unfold qunit, Rdiv. ring.
Qed.
(** A quaternion that is already unit is returned unchanged. *)
Theorem C08_normalised_idempotent : forall q i, (i < 4)%nat -> qnorm2 q = 1 -> NormalizedQuaternion q i = q i.
Proof. intros q i Hi H. rewrite Normalized_eq by auto. unfold qunit. rewrite H, sqrt_1. field. Qed.
Theorem C08_jacobian_exact : forall q, (exists i, (i < 4)%nat /\ q i <> 0) ->
  is_jacobian_mn 4 4 NormalizedQuaternion q (NormalizedQuaternionDerivative q).
Proof. intros q (i & Hi & Hq). apply NormalizedDerivative_exact. apply (qnorm2_pos q i); auto. Qed.
(** The reconstruction of the base rotation in the solver normalises with the
    same function. *)
Theorem C08_same_as_solver : forall a b c d,
  let q : vec := fun i => match i with O => a | 1%nat => b | 2%nat => c | _ => d end in
  Layout.normalized4 (a, b, c, d) =
  (NormalizedQuaternion q 0%nat, NormalizedQuaternion q 1%nat, NormalizedQuaternion q 2%nat, NormalizedQuaternion q 3%nat).
Proof.
  intros a b c d q. unfold Layout.normalized4, NormalizedQuaternion, Layout.sqnorm4, QuaternionSquaredNorm, q.
  destruct Rlt_dec; reflexivity.
Qed.
Print Assumptions C08_normalised_is_unit.
Print Assumptions C08_jacobian_exact.

(** C09: the matrix is the Jacobian of q -> R(q) x, for every q (unit or not) and
    every x (whatever its norm). *)
Theorem C09_rotated_vector_jacobian : forall x q,
  is_jacobian_mn 3 4 (fun p => qrot p x) q (RotatedVectorQuaternionJacobian x q).
Proof. exact Rotated_exact. Qed.
(** On unit quaternions that expression is the rotation q x q^-1, an isometry. *)
Theorem C09_expression_is_rotation : forall q x, qnorm2 q = 1 ->
  (forall i, (i < 3)%nat -> qmul (qmul q (qpure x)) (qconj q) (S i) = qrot q x i) /\
  qrot q x 0%nat ^ 2 + qrot q x 1%nat ^ 2 + qrot q x 2%nat ^ 2 = x 0%nat ^ 2 + x 1%nat ^ 2 + x 2%nat ^ 2.
Proof. intros q x H. split; [intros; apply qrot_sandwich; auto | apply qrot_isometry; auto]. Qed.
Print Assumptions C09_rotated_vector_jacobian.

(** C10 *)
Theorem C10_maps_mutually_inverse : forall q, qnorm2 q = 1 ->
  (forall w i, (i < 3)%nat ->
     mulv 4 (QuaternionLeftTrivializedDerivativeInverse q) (mulv 3 (QuaternionLeftTrivializedDerivative q) w) i = w i) /\
  (forall d, q 0%nat * d 0%nat + q 1%nat * d 1%nat + q 2%nat * d 2%nat + q 3%nat * d 3%nat = 0 ->
     forall i, (i < 4)%nat ->
     mulv 3 (QuaternionLeftTrivializedDerivative q) (mulv 4 (QuaternionLeftTrivializedDerivativeInverse q) d) i = d i).
Proof.
  intros q H. split.
  - intros w i Hi. rewrite Ginv_G, H by auto. ring.
  - intros d Hd i Hi. rewrite G_Ginv, H, Hd by auto. ring.
Qed.
Theorem C10_scaled_by_squared_norm : forall q w i, (i < 3)%nat ->
  mulv 4 (QuaternionLeftTrivializedDerivativeInverse q) (mulv 3 (QuaternionLeftTrivializedDerivative q) w) i = qnorm2 q * w i.
Proof. intros. apply Ginv_G; auto. Qed.
Theorem C10_tangent_to_sphere : forall q w,
  sumn 4 (fun k => q k * mulv 3 (QuaternionLeftTrivializedDerivative q) w k) = 0.
Proof. exact G_tangent. Qed.
Theorem C10_bilinear_jacobians_exact : forall q w d,
  is_jacobian_mn 4 4 (fun p => mulv 3 (QuaternionLeftTrivializedDerivative p) w) q (TimesOmegaJacobian w) /\
  is_jacobian_mn 3 4 (fun p => mulv 4 (QuaternionLeftTrivializedDerivativeInverse p) d) q
     (InverseTimesQuaternionDerivativeJacobian d).
Proof. intros. split; [apply G_jac | apply Ginv_jac]. Qed.
(** The two maps mean what they are named after: a quaternion moving with body
    angular velocity [w] makes a rotated vector move by R(q)(w x X). *)
Theorem C10_body_angular_velocity : forall q x w i, (i < 3)%nat -> qnorm2 q = 1 ->
  mulv 4 (RotatedVectorQuaternionJacobian x q) (mulv 3 (QuaternionLeftTrivializedDerivative q) w) i = qrot q (cross w x) i.
Proof. intros. apply Rotated_G; auto. Qed.
Example C10_example : exists w, mulv 3 (QuaternionLeftTrivializedDerivative q_unit_ex) w 0%nat <> 0.
Proof.
  exists (fun _ => 1). unfold mulv, QuaternionLeftTrivializedDerivative, tail3, q_unit_ex. cbn. lra.
Qed.
Print Assumptions C10_maps_mutually_inverse.
Print Assumptions C10_bilinear_jacobians_exact.
Print Assumptions C10_body_angular_velocity.

(** C50 *)
Theorem C50_inverse_quaternion : forall q,
  (forall i, (i < 4)%nat -> qmul q (InverseQuaternion q) i = qnorm2 q * qident i /\
                            qmul (InverseQuaternion q) q i = qnorm2 q * qident i) /\
  (qnorm2 q = 1 -> forall x i, (i < 3)%nat -> qrot (InverseQuaternion q) (qrot q x) i = x i) /\
  is_jacobian_mn 4 4 InverseQuaternion q InverseQuaternionDerivative.
Proof.
  intros q. split; [|split].
  - intros i Hi. split; [apply Inverse_qmul | apply Inverse_qmul']; auto.
  - intros; apply Inverse_rot; auto.
  - apply InverseDerivative_exact.
Qed.
Theorem C50_bounds_accept_unit : forall q, qnorm2 q = 1 -> QuaternionBoundsRespected q = true.
Proof. exact Bounds_unit. Qed.
Theorem C50_bounds_meaning : forall q, QuaternionBoundsRespected q = true <->
  -1 <= q 0%nat /\ (forall i, (1 <= i < 4)%nat -> -1 - 1/1000000 <= q i) /\ (forall i, (i < 4)%nat -> q i <= 1 + 1/1000000).
Proof. exact Bounds_spec. Qed.
(** Finding: the tolerance is not applied on the lower side of the scalar part, so
    the check is not invariant under the change of sign that leaves the rotation
    unchanged. *)
Theorem C50_bounds_not_sign_symmetric : exists q,
  QuaternionBoundsRespected q = true /\ QuaternionBoundsRespected (fun i => - q i) = false.
Proof.
  exists (fun i => match i with O => 1 + 1/1000000 | _ => 0 end). split.
  - apply Bounds_spec. cbn. repeat split; [lra| |]; intros i Hi; idx i; lra.
  - destruct QuaternionBoundsRespected eqn:E; auto. apply Bounds_spec in E. cbn in E. lra.
Qed.
Print Assumptions C50_inverse_quaternion.
Print Assumptions C50_bounds_accept_unit.
Print Assumptions C50_bounds_meaning.
