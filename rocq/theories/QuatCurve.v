(** A differentiable unit quaternion that represents a moving rotation moves with half the left trivialised map of
    its angular velocity. *)
From Coq Require Import Reals List Arith Lia Lra Bool.
From Coquelicot Require Import Coquelicot.
From Verif Require Import Spec PartialLib SpecQuaternion Quaternion QuaternionProofs.
From Verif Require Import SpecRigid Rigid RigidCalc KinLib.
Local Open Scope R_scope.

Definition represents (q : vec) (A : m3) : Prop :=
  qnorm2 q = 1 /\ forall v i, (i < 3)%nat -> qrot q (vent v) i = vent (mv A v) i.

Lemma qrot_ext q x y : (forall i, (i < 3)%nat -> x i = y i) -> forall i, (i < 3)%nat -> qrot q x i = qrot q y i.
Proof. intros H i Hi. unfold qrot, SpecQuaternion.cross, qvec. rewrite (H i Hi), !(H 0%nat), !(H 1%nat), !(H 2%nat) by lia. reflexivity. Qed.

Lemma qrot_poly (a b c e : R -> R) (x v0 v1 v2 a' b' c' e' : R) :
  is_derive a x a' -> is_derive b x b' -> is_derive c x c' -> is_derive e x e' ->
  is_derive (fun t => v0 + 2 * a t * (c t * v2 - e t * v1) + 2 * (c t * (b t * v1 - c t * v0) - e t * (e t * v0 - b t * v2))) x
    (2 * a' * (c x * v2 - e x * v1) + 2 * a x * (c' * v2 - e' * v1)
     + 2 * (c' * (b x * v1 - c x * v0) + c x * (b' * v1 - c' * v0) - e' * (e x * v0 - b x * v2) - e x * (e' * v0 - b' * v2))).
Proof.
  intros A B C E. auto_derive.
  - repeat split; try (eexists; eassumption).
  - replace (Derive (fun t => a t) x) with a' by (symmetry; apply is_derive_unique, A).
    replace (Derive (fun t => b t) x) with b' by (symmetry; apply is_derive_unique, B).
    replace (Derive (fun t => c t) x) with c' by (symmetry; apply is_derive_unique, C).
    replace (Derive (fun t => e t) x) with e' by (symmetry; apply is_derive_unique, E). ring.
Qed.
Lemma qnorm_poly (a b c e : R -> R) (x a' b' c' e' : R) :
  is_derive a x a' -> is_derive b x b' -> is_derive c x c' -> is_derive e x e' ->
  is_derive (fun t => a t * a t + b t * b t + c t * c t + e t * e t) x (2 * (a x * a' + b x * b' + c x * c' + e x * e')).
Proof.
  intros A B C E. auto_derive.
  - repeat split; try (eexists; eassumption).
  - replace (Derive (fun t => a t) x) with a' by (symmetry; apply is_derive_unique, A).
    replace (Derive (fun t => b t) x) with b' by (symmetry; apply is_derive_unique, B).
    replace (Derive (fun t => c t) x) with c' by (symmetry; apply is_derive_unique, C).
    replace (Derive (fun t => e t) x) with e' by (symmetry; apply is_derive_unique, E). ring.
Qed.
Ltac rring := cbv beta; match goal with |- @eq _ ?a ?b => change (@eq R a b) end; ring.
Lemma qrot_D (q : R -> vec) (x : R) (d v : vec) i : (i < 3)%nat -> (forall k, (k < 4)%nat -> is_derive (fun t => q t k) x (d k)) ->
  is_derive (fun t => qrot (q t) v i) x (mulv 4 (RotatedVectorQuaternionJacobian v (q x)) d i).
Proof.
  intros Hi H. pose proof (H 0%nat ltac:(lia)) as H0; pose proof (H 1%nat ltac:(lia)) as H1; pose proof (H 2%nat ltac:(lia)) as H2; pose proof (H 3%nat ltac:(lia)) as H3.
  unfold mulv. cbn [sumn]. rewrite !Rotated_eq by lia. unfold qrot, qvec, mat3mul.
  destruct i as [|[|[|i]]]; [| | |lia]; cbn [SpecQuaternion.cross Quaternion.skew].
  - eapply D_eq; [exact (qrot_poly _ _ _ _ x (v 0%nat) (v 1%nat) (v 2%nat) _ _ _ _ H0 H1 H2 H3)|rring].
  - eapply D_eq; [exact (qrot_poly _ _ _ _ x (v 1%nat) (v 2%nat) (v 0%nat) _ _ _ _ H0 H2 H3 H1)|rring].
  - eapply D_eq; [exact (qrot_poly _ _ _ _ x (v 2%nat) (v 0%nat) (v 1%nat) _ _ _ _ H0 H3 H1 H2)|rring].
Qed.
Lemma vcross_all a b : (forall v, vcross a v = vcross b v) -> a = b.
Proof.
  intros H. pose proof (H (V3 1 0 0)) as H1. pose proof (H (V3 0 1 0)) as H2. unfold vcross in *. cbn in *.
  injection H1 as _ X1 X2. injection H2 as Y1 _ Y2. destruct a, b; cbn in *. f_equal; lra.
Qed.
Lemma mv_inj A x y : rotation A -> mv A x = mv A y -> x = y.
Proof. intros H E. apply (f_equal (mv (mtr A))) in E. rewrite <- !mv_mm in E. rewrite (proj1 H), !mv_I in E. exact E. Qed.
Lemma vent_inj a b : (forall i, (i < 3)%nat -> vent a i = vent b i) -> a = b.
Proof.
  intros H. destruct a, b. f_equal; [exact (H 0%nat ltac:(lia))|exact (H 1%nat ltac:(lia))|exact (H 2%nat ltac:(lia))].
Qed.

Lemma quat_curve (q : R -> vec) (A : R -> m3) (x : R) (d : vec) w : (forall t, represents (q t) (A t)) -> rotation (A x) ->
  (forall k, (k < 4)%nat -> is_derive (fun t => q t k) x (d k)) -> is_derive_m3 A x (mm (A x) (skew w)) ->
  forall k, (k < 4)%nat -> d k = mulv 3 (QuaternionLeftTrivializedDerivative (q x)) (vent w) k.
Proof.
  intros RP RA DQ DA.
  assert (T : q x 0%nat * d 0%nat + q x 1%nat * d 1%nat + q x 2%nat * d 2%nat + q x 3%nat * d 3%nat = 0).
  { pose proof (DQ 0%nat ltac:(lia)) as H0; pose proof (DQ 1%nat ltac:(lia)) as H1; pose proof (DQ 2%nat ltac:(lia)) as H2; pose proof (DQ 3%nat ltac:(lia)) as H3.
    assert (E : is_derive (fun t => qnorm2 (q t)) x 0).
    { eapply is_derive_ext; [intros t; symmetry; apply (RP t)|]. apply D_const. }
    unfold qnorm2 in E.
    match type of E with is_derive ?f _ _ => assert (E2 : is_derive f x (2 * (q x 0%nat * d 0%nat + q x 1%nat * d 1%nat + q x 2%nat * d 2%nat + q x 3%nat * d 3%nat))) end.
    { eapply D_eq; [exact (qnorm_poly _ _ _ _ x _ _ _ _ H0 H1 H2 H3)|rring]. }
    pose proof (D_unique _ _ _ _ E E2). lra. }
  set (w' := mulv 4 (QuaternionLeftTrivializedDerivativeInverse (q x)) d).
  assert (DW : forall k, (k < 4)%nat -> d k = mulv 3 (QuaternionLeftTrivializedDerivative (q x)) w' k).
  { intros k Hk. unfold w'. rewrite G_Ginv by auto. rewrite T. rewrite (proj1 (RP x)). rring. }
  assert (EW : V3 (w' 0%nat) (w' 1%nat) (w' 2%nat) = w).
  { apply vcross_all. intros v. apply (mv_inj (A x)); [auto|]. apply vent_inj. intros i Hi.
    pose proof (qrot_D q x d (vent v) i Hi DQ) as D1.
    assert (D2 : is_derive (fun t => qrot (q t) (vent v) i) x (vent (mv (A x) (vcross w v)) i)).
    { eapply is_derive_ext; [intros t; symmetry; apply (RP t); auto|].
      pose proof (v3_D_mv A (fun _ => v) x _ _ DA (v3_D_const v x)) as D. apply vent_D with (i := i) in D.
      eapply D_eq; [exact D|]. f_equal. cbv beta. destruct w, v, (A x). unfold vadd, mv, mm, skew, vcross, v30. cbn. f_equal; ring. }
    rewrite <- (D_unique _ _ _ _ D1 D2).
    transitivity (mulv 4 (RotatedVectorQuaternionJacobian (vent v) (q x)) (mulv 3 (QuaternionLeftTrivializedDerivative (q x)) w') i).
    - rewrite Rotated_G by (auto; apply (RP x)). rewrite <- (proj2 (RP x)) by auto. apply qrot_ext; [|auto].
      intros k Hk. destruct k as [|[|[|k]]]; [| | |lia]; reflexivity.
    - unfold mulv at 1 3. apply sumn_ext. intros k Hk. rewrite (DW k Hk). reflexivity. }
  intros k Hk. rewrite (DW k Hk). rewrite <- EW. unfold mulv. apply sumn_ext. intros j Hj. f_equal. destruct j as [|[|[|j]]]; [| | |lia]; reflexivity.
Qed.
