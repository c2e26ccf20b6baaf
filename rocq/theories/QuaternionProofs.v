(** Proofs about the quaternion utilities (C08-C10, C50). *)
From Coq Require Import Reals List Arith Lia Lra Bool Nsatz FunctionalExtensionality.
From Coquelicot Require Import Coquelicot.
From Verif Require Import Spec SpecQuaternion PartialLib Quaternion.
Local Open Scope R_scope.

Ltac idx i := destruct i as [|[|[|[|i]]]]; try lia.

Lemma sqn_eq q : QuaternionSquaredNorm q = qnorm2 q.
Proof. reflexivity. Qed.
Lemma qnorm2_nonneg q : 0 <= qnorm2 q.
Proof. unfold qnorm2. nra. Qed.
Lemma qnorm2_zero q i : (i < 4)%nat -> qnorm2 q <= 0 -> q i = 0.
Proof. unfold qnorm2. intros Hi H. idx i; nra. Qed.
Lemma qnorm2_pos q i : (i < 4)%nat -> q i <> 0 -> 0 < qnorm2 q.
Proof.
  intros Hi H. destruct (Rlt_dec 0 (qnorm2 q)); auto. exfalso. apply H.
  apply qnorm2_zero; auto. lra.
Qed.

Lemma Normalized_eq q i : (i < 4)%nat -> NormalizedQuaternion q i = qunit q i.
Proof.
  intros Hi. unfold NormalizedQuaternion, qunit. rewrite sqn_eq. destruct Rlt_dec; auto.
  rewrite (qnorm2_zero q i Hi); [|lra]. unfold Rdiv. ring.
Qed.

Lemma qunit_norm q : 0 < qnorm2 q -> qnorm2 (qunit q) = 1.
Proof.
  intros H. pose proof (sqrt_lt_R0 _ H) as Hs.
  unfold qnorm2 at 1, qunit.
  assert (E : sqrt (qnorm2 q) * sqrt (qnorm2 q) = qnorm2 q) by (apply sqrt_sqrt; lra).
  set (s := sqrt (qnorm2 q)) in *.
  transitivity (qnorm2 q / (s * s)).
  - unfold qnorm2. field. lra.
  - rewrite E. field. lra.
Qed.

Lemma Normalized_norm q : 0 < qnorm2 q -> qnorm2 (NormalizedQuaternion q) = 1.
Proof.
  intros H. rewrite <- (qunit_norm q H). unfold qnorm2 at 1. rewrite !Normalized_eq by lia. reflexivity.
Qed.

Lemma partial_qnorm2 q k : (k < 4)%nat -> partial qnorm2 q k (2 * q k).
Proof.
  intros Hk. apply (partial_ext (fun y => y 0%nat * y 0%nat + y 1%nat * y 1%nat + y 2%nat * y 2%nat + y 3%nat * y 3%nat)).
  { reflexivity. }
  eapply partial_eq. { deriv fail. }
  unfold ind. idx k; simpl; ring.
Qed.

Lemma NormalizedDerivative_exact q : 0 < qnorm2 q ->
  is_jacobian_mn 4 4 NormalizedQuaternion q (NormalizedQuaternionDerivative q).
Proof.
  intros H i k Hi Hk.
  apply (partial_ext (fun y => y i / sqrt (qnorm2 y))).
  { intros y. symmetry. exact (Normalized_eq y i Hi). }
  pose proof (sqrt_lt_R0 _ H) as Hs.
  assert (E : sqrt (qnorm2 q) * sqrt (qnorm2 q) = qnorm2 q) by (apply sqrt_sqrt; lra).
  eapply partial_eq.
  { apply partial_div; [lra | apply partial_var |].
    apply (partial_comp sqrt (fun z => / (2 * sqrt z)) (fun y => qnorm2 y)).
    - apply is_derive_Reals. apply derivable_pt_lim_sqrt; auto.
    - apply partial_qnorm2; auto. }
  unfold NormalizedQuaternionDerivative, QuaternionNorm. change (QuaternionSquaredNorm q) with (qnorm2 q).
  set (s := sqrt (qnorm2 q)) in *. rewrite <- E.
  unfold identity, ind. destruct (Nat.eqb i k); field; lra.
Qed.

(** Rotated vector *)
Lemma cross3_eq : cross3 = cross.
Proof. reflexivity. Qed.
Lemma Rotated_eq x q i j : (i < 3)%nat -> (j < 4)%nat ->
  RotatedVectorQuaternionJacobian x q i j =
  2 * match j with
      | O => cross (qvec q) x i
      | S j' => - q 0%nat * skew x i j' - skew (cross (qvec q) x) i j' - mat3mul (skew (qvec q)) (skew x) i j'
      end.
Proof.
  intros Hi Hj. unfold RotatedVectorQuaternionJacobian. rewrite cross3_eq.
  change (tail3 q) with (qvec q).
  destruct (Rlt_dec 1 (norm3 x)).
  - idx i; idx j; cbn [mat3mul skew cross qvec]; unfold mat3mul, qvec; cbn [skew cross]; field; lra.
  - idx i; idx j; cbn [mat3mul skew cross qvec]; unfold mat3mul, qvec; cbn [skew cross]; ring.
Qed.
Lemma Rotated_exact x q : is_jacobian_mn 3 4 (fun p => qrot p x) q (RotatedVectorQuaternionJacobian x q).
Proof.
  intros i k Hi Hk. rewrite Rotated_eq by auto. unfold qrot, qvec.
  idx i; cbn [cross]; (eapply partial_eq; [deriv fail|]); unfold ind; idx k; cbn [Nat.eqb];
    unfold mat3mul, qvec; cbn [skew cross]; ring.
Qed.

Lemma qrot_sandwich q x i : (i < 3)%nat -> qnorm2 q = 1 ->
  qmul (qmul q (qpure x)) (qconj q) (S i) = qrot q x i.
Proof.
  unfold qnorm2. intros Hi H. unfold qrot, qvec. idx i; cbn [qmul qpure qconj cross]; nsatz.
Qed.
Lemma qrot_isometry q x : qnorm2 q = 1 ->
  qrot q x 0%nat ^ 2 + qrot q x 1%nat ^ 2 + qrot q x 2%nat ^ 2 = x 0%nat ^ 2 + x 1%nat ^ 2 + x 2%nat ^ 2.
Proof.
  unfold qnorm2, qrot, qvec. cbn [cross].
  generalize (q 0%nat), (q 1%nat), (q 2%nat), (q 3%nat), (x 0%nat), (x 1%nat), (x 2%nat).
  intros q0 q1 q2 q3 x0 x1 x2 H.
  apply Rminus_diag_uniq.
  transitivity (4 * ((q2 * x2 - q3 * x1)^2 + (q3 * x0 - q1 * x2)^2 + (q1 * x1 - q2 * x0)^2) *
                (q0 * q0 + q1 * q1 + q2 * q2 + q3 * q3 - 1)); [ring | rewrite H; ring].
Qed.

(** Left trivialised derivative *)
Ltac unf := unfold QuaternionLeftTrivializedDerivative, QuaternionLeftTrivializedDerivativeInverse,
  TimesOmegaJacobian, InverseTimesQuaternionDerivativeJacobian, mulv, identity, tail3, delta in *; cbn [sumn skew Nat.eqb].
Lemma Ginv_G q w i : (i < 3)%nat ->
  mulv 4 (QuaternionLeftTrivializedDerivativeInverse q) (mulv 3 (QuaternionLeftTrivializedDerivative q) w) i = qnorm2 q * w i.
Proof. intros Hi. unf. unfold qnorm2. idx i; cbn [skew Nat.eqb]; field. Qed.
Lemma G_Ginv q d i : (i < 4)%nat ->
  mulv 3 (QuaternionLeftTrivializedDerivative q) (mulv 4 (QuaternionLeftTrivializedDerivativeInverse q) d) i =
  qnorm2 q * d i - (q 0%nat * d 0%nat + q 1%nat * d 1%nat + q 2%nat * d 2%nat + q 3%nat * d 3%nat) * q i.
Proof. intros Hi. unf. unfold qnorm2. idx i; cbn [skew Nat.eqb]; field. Qed.
Lemma G_tangent q w : sumn 4 (fun k => q k * mulv 3 (QuaternionLeftTrivializedDerivative q) w k) = 0.
Proof. unf. field. Qed.
(** It is half the quaternion product with the pure quaternion of the angular velocity. *)
Lemma G_qmul q w i : (i < 4)%nat ->
  mulv 3 (QuaternionLeftTrivializedDerivative q) w i = 1/2 * qmul q (qpure w) i.
Proof. intros Hi. unf. idx i; cbn [skew Nat.eqb qmul qpure]; field. Qed.
Lemma Ginv_qmul q d i : (i < 3)%nat ->
  mulv 4 (QuaternionLeftTrivializedDerivativeInverse q) d i = 2 * qmul (qconj q) d (S i).
Proof. intros Hi. unf. idx i; cbn [skew Nat.eqb qmul qconj]; ring. Qed.
Lemma G_jac q w : is_jacobian_mn 4 4 (fun p => mulv 3 (QuaternionLeftTrivializedDerivative p) w) q (TimesOmegaJacobian w).
Proof.
  intros i k Hi Hk. apply (partial_ext (fun y => 1/2 * qmul y (qpure w) i)).
  { intros y. symmetry. apply G_qmul; auto. }
  idx i; cbn [qmul qpure]; (eapply partial_eq; [deriv fail|]); unfold ind; unf; idx k; cbn [Nat.eqb skew]; field.
Qed.
Lemma Ginv_jac q d : is_jacobian_mn 3 4 (fun p => mulv 4 (QuaternionLeftTrivializedDerivativeInverse p) d) q
  (InverseTimesQuaternionDerivativeJacobian d).
Proof.
  intros i k Hi Hk. apply (partial_ext (fun y => 2 * qmul (qconj y) d (S i))).
  { intros y. symmetry. apply Ginv_qmul; auto. }
  idx i; cbn [qmul qconj]; (eapply partial_eq; [deriv fail|]); unfold ind; unf; idx k; cbn [Nat.eqb skew]; ring.
Qed.
(** Chain rule with the rotation: d/dt R(q) x = R(q) (w x X). *)
Lemma Rotated_G q x w i : (i < 3)%nat -> qnorm2 q = 1 ->
  mulv 4 (RotatedVectorQuaternionJacobian x q) (mulv 3 (QuaternionLeftTrivializedDerivative q) w) i = qrot q (cross w x) i.
Proof.
  intros Hi H. unfold mulv at 1. cbn [sumn]. rewrite !Rotated_eq by lia. rewrite !G_qmul by lia.
  assert (Hh : 2 * (1/2) = 1) by field. generalize dependent (1/2). intros h Hh.
  unfold qrot, qnorm2, mat3mul, qvec in *.
  idx i; cbn [skew cross qmul qpure]; 
   (generalize dependent (q 0%nat); generalize dependent (q 1%nat); generalize dependent (q 2%nat); generalize dependent (q 3%nat);
    intros q3 q2 q1 q0 H).
  all: assert (E : q0 * q0 = 1 - q1 * q1 - q2 * q2 - q3 * q3) by lra; nsatz.
Qed.

(** Inverse *)
Lemma Inverse_qmul q i : (i < 4)%nat -> qmul q (InverseQuaternion q) i = qnorm2 q * qident i.
Proof. intros Hi. unfold qnorm2. idx i; cbn [qmul InverseQuaternion qident]; ring. Qed.
Lemma Inverse_qmul' q i : (i < 4)%nat -> qmul (InverseQuaternion q) q i = qnorm2 q * qident i.
Proof. intros Hi. unfold qnorm2. idx i; cbn [qmul InverseQuaternion qident]; ring. Qed.
Lemma Inverse_rot q x i : (i < 3)%nat -> qnorm2 q = 1 -> qrot (InverseQuaternion q) (qrot q x) i = x i.
Proof.
  unfold qnorm2, qrot, qvec. intros Hi H.
  idx i; cbn [cross InverseQuaternion]; 
   (generalize dependent (q 0%nat); generalize dependent (q 1%nat); generalize dependent (q 2%nat); generalize dependent (q 3%nat);
    intros q3 q2 q1 q0 H).
  all: assert (E : q0 * q0 = 1 - q1 * q1 - q2 * q2 - q3 * q3) by lra; nsatz.
Qed.
Lemma InverseDerivative_exact q : is_jacobian_mn 4 4 InverseQuaternion q InverseQuaternionDerivative.
Proof.
  intros i k Hi Hk. idx i; cbn [InverseQuaternion]; (eapply partial_eq; [deriv fail|]);
    unfold ind, InverseQuaternionDerivative; idx k; cbn [Nat.eqb]; ring.
Qed.

Lemma Rleb_true a b : Rleb a b = true <-> a <= b.
Proof. unfold Rleb. destruct Rle_dec; split; intros; auto; try discriminate; contradiction. Qed.
Lemma Bounds_spec q : QuaternionBoundsRespected q = true <->
  -1 <= q 0%nat /\ (forall i, (1 <= i < 4)%nat -> -1 - 1/1000000 <= q i) /\ (forall i, (i < 4)%nat -> q i <= 1 + 1/1000000).
Proof.
  unfold QuaternionBoundsRespected. rewrite !andb_true_iff, !Rleb_true. split.
  - intros [[[[[[[A B] C] D] E] F] G] H]. repeat split; auto; intros i Hi; idx i; auto.
  - intros (A & B & C). repeat split; auto; apply B || apply C; lia.
Qed.
Lemma Bounds_unit q : qnorm2 q = 1 -> QuaternionBoundsRespected q = true.
Proof.
  unfold qnorm2. intros H. apply Bounds_spec. repeat split; [nra| |]; intros i Hi; idx i; nra.
Qed.
