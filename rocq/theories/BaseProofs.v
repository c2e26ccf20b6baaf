(** Proofs for C60, C61: the base expressions and the quaternion error. *)
From Coq Require Import Reals List Arith Lia Lra Bool QArith Nsatz FunctionalExtensionality.
From Coquelicot Require Import Coquelicot.
From Verif Require Import Spec PartialLib SpecQuaternion Quaternion QuaternionProofs.
From Verif Require Import SpecRigid SpecBase SpecDerivatives Rigid RigidCalc KinTree KinModel KinLib QuatCurve KinProofs BaseModel.
Import ListNotations.
Local Open Scope R_scope.

Lemma qmat_mv q v i : (i < 3)%nat -> qrot q (vent v) i = vent (mv (qmat q) v) i.
Proof. intros Hi. destruct v. unfold qmat, qrot, SpecQuaternion.cross, qvec, delta, mv. split3 i; cbn; ring. Qed.
Lemma qmat_rep q : qnorm2 q = 1 -> represents q (qmat q).
Proof. intros H. split; [exact H|]. intros v i Hi. apply qmat_mv; auto. Qed.
Lemma qmat_rot q : qnorm2 q = 1 -> rotation (qmat q).
Proof.
  unfold qnorm2. intros H. set (a := q 0%nat) in *. set (b := q 1%nat) in *. set (c := q 2%nat) in *. set (d := q 3%nat) in *.
  assert (A : a * a = 1 - b * b - c * c - d * d) by lra.
  split.
  - unfold mm, mtr, m3I, qmat, qrot, SpecQuaternion.cross, qvec, delta. cbn. fold a b c d. f_equal; nsatz.
  - unfold mdet, qmat, qrot, SpecQuaternion.cross, qvec, delta. cbn. fold a b c d. nsatz.
Qed.
Lemma ment_qmat q i j : (i < 3)%nat -> (j < 3)%nat -> ment (qmat q) i j = qrot q (fun i => delta i j) i.
Proof. intros Hi Hj. split3 i; split3 j; reflexivity. Qed.
(** The inertial velocity is the rotation of the body velocity. *)
Definition Einv (q d : vec) : v3 :=
  V3 (2 * (- q 1%nat * d 0%nat + (q 0%nat * d 1%nat + (- q 3%nat * d 2%nat + q 2%nat * d 3%nat))))
     (2 * (- q 2%nat * d 0%nat + (q 3%nat * d 1%nat + (q 0%nat * d 2%nat + - q 1%nat * d 3%nat))))
     (2 * (- q 3%nat * d 0%nat + (- q 2%nat * d 1%nat + (q 1%nat * d 2%nat + q 0%nat * d 3%nat)))).
Definition Ginv3 (q d : vec) : v3 :=
  let w := mulv 4 (QuaternionLeftTrivializedDerivativeInverse q) d in V3 (w 0%nat) (w 1%nat) (w 2%nat).
Lemma Ginv3_eq q d : Ginv3 q d =
  V3 (2 * (- q 1%nat * d 0%nat + q 0%nat * d 1%nat + q 3%nat * d 2%nat - q 2%nat * d 3%nat))
     (2 * (- q 2%nat * d 0%nat - q 3%nat * d 1%nat + q 0%nat * d 2%nat + q 1%nat * d 3%nat))
     (2 * (- q 3%nat * d 0%nat + q 2%nat * d 1%nat - q 1%nat * d 2%nat + q 0%nat * d 3%nat)).
Proof. unfold Ginv3, mulv, QuaternionLeftTrivializedDerivativeInverse, Quaternion.skew, tail3, identity. cbn. f_equal; ring. Qed.
Lemma E_is_RG q d : qnorm2 q = 1 -> Einv q d = mv (qmat q) (Ginv3 q d).
Proof.
  unfold qnorm2. intros H. rewrite Ginv3_eq. unfold Einv, mv, qmat, qrot, SpecQuaternion.cross, qvec, delta. cbn.
  set (a := q 0%nat) in *. set (b := q 1%nat) in *. set (c := q 2%nat) in *. set (e := q 3%nat) in *.
  f_equal; nsatz.
Qed.
Lemma Ginv3_self n : Ginv3 n n = v30.
Proof. rewrite Ginv3_eq. unfold v30. f_equal; ring. Qed.
Lemma Ginv3_lin n (d e : vec) (k l : R) : Ginv3 n (fun i => k * d i + l * e i) = vadd (vscale k (Ginv3 n d)) (vscale l (Ginv3 n e)).
Proof. rewrite !Ginv3_eq. unfold vadd, vscale. cbn. f_equal; ring. Qed.
Lemma vent_Ginv3 q d k : (k < 3)%nat -> vent (Ginv3 q d) k = mulv 4 (QuaternionLeftTrivializedDerivativeInverse q) d k.
Proof. intros H. split3 k; reflexivity. Qed.

(** A unit quaternion that moves along d moves the rotation with the body velocity Ginv d. *)
Lemma qmat_D (n : R -> vec) (x : R) (e : vec) : qnorm2 (n x) = 1 -> (forall k, (k < 4)%nat -> is_derive (fun t => n t k) x (e k)) ->
  sumn 4 (fun k => n x k * e k) = 0 -> is_derive_m3 (fun t => qmat (n t)) x (mm (qmat (n x)) (skew (Ginv3 (n x) e))).
Proof.
  intros U D T.
  assert (DW : forall k, (k < 4)%nat -> e k = mulv 3 (QuaternionLeftTrivializedDerivative (n x)) (vent (Ginv3 (n x) e)) k).
  { intros k Hk. transitivity (mulv 3 (QuaternionLeftTrivializedDerivative (n x)) (mulv 4 (QuaternionLeftTrivializedDerivativeInverse (n x)) e) k).
    - rewrite G_Ginv by auto. cbn in T. replace (n x 0%nat * e 0%nat + n x 1%nat * e 1%nat + n x 2%nat * e 2%nat + n x 3%nat * e 3%nat) with 0 by lra. rewrite U. ring.
    - unfold mulv at 1 3. apply sumn_ext. intros j Hj. rewrite vent_Ginv3 by auto. reflexivity. }
  assert (P : forall i j, (i < 3)%nat -> (j < 3)%nat -> is_derive (fun t => ment (qmat (n t)) i j) x (ment (mm (qmat (n x)) (skew (Ginv3 (n x) e))) i j)).
  { intros i j Hi Hj. eapply D_ext; [intros t; symmetry; apply ment_qmat; auto|].
    eapply D_eq; [exact (qrot_D n x e (fun i => delta i j) i Hi D)|].
    transitivity (mulv 4 (RotatedVectorQuaternionJacobian (fun i => delta i j) (n x)) (mulv 3 (QuaternionLeftTrivializedDerivative (n x)) (vent (Ginv3 (n x) e))) i).
    - unfold mulv at 1 2. apply sumn_ext. intros k Hk. rewrite (DW k Hk). reflexivity.
    - rewrite Rotated_G by auto.
      transitivity (vent (mv (qmat (n x)) (vcross (Ginv3 (n x) e) (V3 (delta 0 j) (delta 1 j) (delta 2 j)))) i).
      + rewrite <- qmat_mv by auto. apply qrot_ext; [|auto]. intros k Hk. split3 k; reflexivity.
      + generalize (qmat (n x)) (Ginv3 (n x) e). intros A w. destruct A, w. split3 i; split3 j; cbn; ring. }
  unfold is_derive_m3.
  assert (Q : forall i j, (i < 3)%nat -> (j < 3)%nat -> is_derive (fun t => ment (qmat (n t)) i j) x (ment (mm (qmat (n x)) (skew (Ginv3 (n x) e))) i j)) by exact P.
  repeat match goal with |- _ /\ _ => split end;
    [exact (Q 0 0 ltac:(lia) ltac:(lia))%nat|exact (Q 0 1 ltac:(lia) ltac:(lia))%nat|exact (Q 0 2 ltac:(lia) ltac:(lia))%nat
    |exact (Q 1 0 ltac:(lia) ltac:(lia))%nat|exact (Q 1 1 ltac:(lia) ltac:(lia))%nat|exact (Q 1 2 ltac:(lia) ltac:(lia))%nat
    |exact (Q 2 0 ltac:(lia) ltac:(lia))%nat|exact (Q 2 1 ltac:(lia) ltac:(lia))%nat|exact (Q 2 2 ltac:(lia) ltac:(lia))%nat].
Qed.
(** The normalised quaternion of a moving quaternion. *)
Definition unit_rate (q d : vec) : vec := fun i =>
  (1 / sqrt (qnorm2 q)) * d i + (- (sumn 4 (fun k => qunit q k * d k)) / sqrt (qnorm2 q)) * qunit q i.
Lemma unit_D (q : R -> vec) (x : R) (d : vec) : 0 < qnorm2 (q x) -> (forall k, (k < 4)%nat -> is_derive (fun t => q t k) x (d k)) ->
  forall k, (k < 4)%nat -> is_derive (fun t => qunit (q t) k) x (unit_rate (q x) d k).
Proof.
  intros P D k Hk.
  pose proof (qnorm_poly (fun t => q t 0%nat) (fun t => q t 1%nat) (fun t => q t 2%nat) (fun t => q t 3%nat) x _ _ _ _ (D 0%nat ltac:(lia)) (D 1%nat ltac:(lia)) (D 2%nat ltac:(lia)) (D 3%nat ltac:(lia))) as DN.
  match type of DN with is_derive _ _ ?e => set (N' := e) in DN end.
  assert (DS : is_derive (fun t => sqrt (qnorm2 (q t))) x (N' / (2 * sqrt (qnorm2 (q x))))) by (apply is_derive_sqrt; [exact DN|exact P]).
  pose proof (sqrt_lt_R0 _ P) as S0.
  unfold qunit. eapply D_eq; [apply (is_derive_div (fun t => q t k) (fun t => sqrt (qnorm2 (q t))) x _ _ (D k Hk) DS); lra|].
  unfold unit_rate, qunit, N'. cbn. set (s := sqrt (qnorm2 (q x))) in *.
  match goal with |- @eq _ ?a ?b => change (@eq R a b) end.
  field. lra.
Qed.
Lemma unit_rate_tangent q d : 0 < qnorm2 q -> sumn 4 (fun k => qunit q k * unit_rate q d k) = 0.
Proof.
  intros P. pose proof (qunit_norm q P) as U. unfold qnorm2 in U. unfold unit_rate.
  set (T := sumn 4 (fun k => qunit q k * d k)). set (k1 := 1 / sqrt (qnorm2 q)). replace (- T / sqrt (qnorm2 q)) with (- T * k1) by (unfold k1, Rdiv; ring).
  transitivity (k1 * T - T * k1 * (qunit q 0%nat * qunit q 0%nat + qunit q 1%nat * qunit q 1%nat + qunit q 2%nat * qunit q 2%nat + qunit q 3%nat * qunit q 3%nat)).
  - assert (ET : T = qunit q 0%nat * d 0%nat + qunit q 1%nat * d 1%nat + qunit q 2%nat * d 2%nat + qunit q 3%nat * d 3%nat) by (unfold T; cbn [sumn]; ring). clearbody T. cbn [sumn]. rewrite ET. ring.
  - rewrite U. ring.
Qed.
Lemma unit_rate_G q d : Ginv3 (qunit q) (unit_rate q d) = vscale (1 / sqrt (qnorm2 q)) (Ginv3 (qunit q) d).
Proof.
  unfold unit_rate. rewrite (Ginv3_lin (qunit q) d (qunit q)). rewrite Ginv3_self. destruct (Ginv3 (qunit q) d). unfold vadd, vscale, v30. cbn. f_equal; ring.
Qed.
(** The base: its velocity, seen in the base, when the quaternion moves with [d]. *)
Lemma base_moves (q : R -> vec) (p : R -> v3) (x : R) (d : vec) (v : v3) : 0 < qnorm2 (q x) ->
  (forall k, (k < 4)%nat -> is_derive (fun t => q t k) x (d k)) -> is_derive_v3 p x (mv (qmat (qunit (q x))) v) ->
  moves (fun t => base_pose (q t) (p t)) x (V6 v (vscale (1 / sqrt (qnorm2 (q x))) (Ginv3 (qunit (q x)) d))).
Proof.
  intros P D DP. split; [|exact DP]. unfold base_pose. cbn [rot ang].
  rewrite <- unit_rate_G. apply (qmat_D (fun t => qunit (q t))).
  - apply qunit_norm; auto.
  - apply unit_D; auto.
  - apply unit_rate_tangent; auto.
Qed.

(** ** What the formulas mean *)
Section Den.
Variable dofs : nat.
Variable ue : nat -> env -> mat.
Notation VD := (vdim dofs).
Notation UR := urows.
Notation UC := (ucols dofs).
Notation Den := (den VD UR UC ue).
Lemma skew_den rho F a : Den rho F 3 1 (fun i _ => a i) -> Den rho (FSkew F) 3 3 (Quaternion.skew a).
Proof.
  intros (W & R0 & C0 & E). split; [exact (conj W (conj R0 C0))|]. split; [reflexivity|]. split; [reflexivity|].
  intros i j Hi Hj. pose proof (E 0%nat 0%nat ltac:(lia) ltac:(lia)) as E0. pose proof (E 1%nat 0%nat ltac:(lia) ltac:(lia)) as E1. pose proof (E 2%nat 0%nat ltac:(lia) ltac:(lia)) as E2.
  split3 i; split3 j; cbn [meaning Quaternion.skew]; rewrite ?E0, ?E1, ?E2; reflexivity.
Qed.
Lemma half_ok : good_exponent (1 # 2).
Proof.
  intros n Hn H. exfalso. apply Qabs.Qabs_Qlt_condition in H. destruct H as [H _].
  assert (L : (inject_Z 1 <= inject_Z (Z.of_nat n))%Q) by (rewrite <- Zle_Qle; lia).
  apply Qlt_not_le in H. apply H. clear H.
  apply Qle_trans with ((1 # 2) - inject_Z 1)%Q.
  - unfold Qminus. apply Qplus_le_compat; [apply Qle_refl|]. apply Qopp_le_compat. exact L.
  - discriminate.
Qed.
Lemma rpow_half x : 0 < x -> rpow x (1 # 2) = sqrt x.
Proof.
  intros P. unfold rpow. cbn. rewrite <- Rpower_sqrt by auto. f_equal. unfold Q2R. cbn. lra.
Qed.
Lemma div_den rho F G n (a : vec) (b : R) : Den rho F n 1 (fun i _ => a i) -> Den rho G 1 1 (fun _ _ => b) -> Den rho (FDiv F G) n 1 (fun i _ => a i / b).
Proof.
  intros (W & R0 & C0 & E) (W' & R0' & C0' & E'). split; [exact (conj W (conj W' (conj C0 (conj R0' C0'))))|]. split; [exact R0|]. split; [exact C0|].
  intros i j Hi Hj. assert (j = 0%nat) as -> by lia. change (meaning VD UR UC ue rho F i 0 / meaning VD UR UC ue rho G 0 0 = a i / b). rewrite E, E' by lia. reflexivity.
Qed.
Lemma pow_den rho F (a : R) : Den rho F 1 1 (fun _ _ => a) -> Den rho (FPow F (1 # 2)) 1 1 (fun _ _ => rpow a (1 # 2)).
Proof.
  intros (W & R0 & C0 & E). split; [exact (conj W (conj R0 (conj C0 half_ok)))|]. split; [reflexivity|]. split; [reflexivity|].
  intros i j Hi Hj. change (rpow (meaning VD UR UC ue rho F 0 0) (1 # 2) = rpow a (1 # 2)). rewrite E by lia. reflexivity.
Qed.
Lemma sub_den rho F G n m A B : Den rho F n m A -> Den rho G n m B -> Den rho (FSub F G) n m (fun i j => A i j - B i j).
Proof.
  intros (W & R0 & C0 & E) (W' & R0' & C0' & E'). split; [cbn [well_formed]; rewrite R0, R0', C0, C0'; auto|]. split; [exact R0|]. split; [exact C0|].
  intros i j Hi Hj. cbn [meaning]. rewrite E, E' by auto. reflexivity.
Qed.
Lemma normalized_den rho : Den rho (normalized v_q) 4 1 (fun i _ => rho v_q i / rpow (qnorm2 (rho v_q)) (1 # 2)).
Proof.
  unfold normalized. pose proof (den_var VD UR UC ue rho v_q) as DV. cbn [vdim v_q] in DV.
  apply div_den; [exact DV|]. apply pow_den.
  eapply den_ext; [exact (den_mul VD UR UC ue rho _ _ 1 4 1 _ _ (den_transp VD UR UC ue rho _ _ _ _ DV) DV)|].
  intros i j Hi Hj. cbv beta. unfold qnorm2. cbn [sumn]. ring.
Qed.
Lemma normalized_unit rho : 0 < qnorm2 (rho v_q) -> Den rho (normalized v_q) 4 1 (fun i _ => qunit (rho v_q) i).
Proof.
  intros P. eapply den_ext; [apply normalized_den|]. intros i j Hi Hj. cbv beta. rewrite rpow_half by auto. reflexivity.
Qed.
Lemma rotation_den rho F q : Den rho F 4 1 (fun i _ => q i) -> Den rho (rotation_formula F) 3 3 (ment (qmat q)).
Proof.
  intros D. unfold rotation_formula.
  assert (DI : Den rho (FBlock F 1 0 3 1) 3 1 (fun i _ => q (S i))) by (apply (den_block VD UR UC ue rho F 4 1 (fun i _ => q i)); [exact D|lia|lia]).
  pose proof (skew_den rho _ (fun i => q (S i)) DI) as DS.
  pose proof (den_scal VD UR UC ue rho (scalar 2) _ 3 3 2 _ (den_const VD UR UC ue rho 1 1 _) DS) as D2.
  pose proof (den_elem VD UR UC ue rho F 4 1 _ 0 0 D ltac:(lia) ltac:(lia)) as D0.
  pose proof (den_scal VD UR UC ue rho _ _ 3 3 _ _ D0 D2) as D3.
  pose proof (den_add VD UR UC ue rho _ _ 3 3 _ _ (den_ident VD UR UC ue rho 3) D3) as D4.
  eapply den_ext; [exact (den_add VD UR UC ue rho _ _ 3 3 _ _ D4 (den_mul VD UR UC ue rho _ _ 3 3 3 _ _ D2 DS))|].
  intros i j Hi Hj. cbv beta. rewrite ment_qmat by auto. unfold qrot, SpecQuaternion.cross, qvec, delta. 
  split3 i; split3 j; cbn; ring.
Qed.
Lemma body_den rho L Q N (l d n : vec) : Den rho L 3 1 (fun i _ => l i) -> Den rho Q 4 1 (fun i _ => d i) -> Den rho N 4 1 (fun i _ => n i) ->
  Den rho (body_twist L Q N) 6 1 (fun i _ => v6ent (V6 (V3 (l 0%nat) (l 1%nat) (l 2%nat)) (Ginv3 n d)) i).
Proof.
  intros DL DQ DN. unfold body_twist.
  pose proof (den_scal VD UR UC ue rho (scalar 2) _ 3 4 2 _ (den_const VD UR UC ue rho 1 1 _) (G_den (Robot 0 [] []) dofs (Nat.le_0_l dofs) ue rho N n DN)) as DG.
  pose proof (den_mul VD UR UC ue rho _ _ 3 4 1 _ _ DG DQ) as DM.
  eapply den_ext; [exact (den_vert VD UR UC ue rho _ _ 3 3 1 _ _ DL DM)|].
  intros i j Hi Hj. cbv beta. rewrite Ginv3_eq. unfold QuaternionLeftTrivializedDerivative, tail3, identity, v6ent.
  split6 i; cbn; try reflexivity; field.
Qed.
Lemma base_twist_den rho : 0 < qnorm2 (rho v_q) ->
  Den rho base_twist 6 1 (fun i _ => v6ent (V6 (V3 (rho v_lin 0%nat) (rho v_lin 1%nat) (rho v_lin 2%nat)) (Einv (qunit (rho v_q)) (rho v_qdot))) i).
Proof.
  intros P. unfold base_twist. pose proof (normalized_unit rho P) as DN. set (n := qunit (rho v_q)) in *.
  pose proof (den_var VD UR UC ue rho v_lin) as DL. cbn [vdim v_lin] in DL.
  pose proof (den_var VD UR UC ue rho v_qdot) as DQ. cbn [vdim v_qdot] in DQ.
  assert (DI : Den rho (FBlock (normalized v_q) 1 0 3 1) 3 1 (fun i _ => n (S i))) by (apply (den_block VD UR UC ue rho _ 4 1 (fun i _ => n i)); [exact DN|lia|lia]).
  pose proof (den_neg VD UR UC ue rho _ 3 1 _ DI) as DM.
  pose proof (den_elem VD UR UC ue rho _ 4 1 _ 0 0 DN ltac:(lia) ltac:(lia)) as DR.
  pose proof (den_elem VD UR UC ue rho _ 1 1 _ 0 0 DR ltac:(lia) ltac:(lia)) as DR'.
  pose proof (den_elem VD UR UC ue rho _ 4 1 _ 0 0 DQ ltac:(lia) ltac:(lia)) as DQ0.
  assert (DQ3 : Den rho (FBlock (FVar v_qdot) 1 0 3 1) 3 1 (fun i _ => rho v_qdot (S i))) by (apply (den_block VD UR UC ue rho _ 4 1 (fun i _ => rho v_qdot i)); [exact DQ|lia|lia]).
  pose proof (den_scal_r VD UR UC ue rho _ _ 3 1 _ _ DM DQ0 ltac:(lia)) as D1.
  pose proof (den_scal VD UR UC ue rho _ _ 3 3 _ _ DR' (den_ident VD UR UC ue rho 3)) as D2.
  pose proof (sub_den rho _ _ 3 3 _ _ D2 (skew_den rho _ (fun i => - n (S i)) DM)) as D3.
  pose proof (den_mul VD UR UC ue rho _ _ 3 3 1 _ _ D3 DQ3) as D4.
  pose proof (den_scal VD UR UC ue rho (scalar 2) _ 3 1 2 _ (den_const VD UR UC ue rho 1 1 _) (den_add VD UR UC ue rho _ _ 3 1 _ _ D1 D4)) as D5.
  eapply den_ext; [exact (den_vert VD UR UC ue rho _ _ 3 3 1 _ _ DL D5)|].
  intros i j Hi Hj. cbv beta. unfold Einv, v6ent. split6 i; cbn; try reflexivity; ring.
Qed.
End Den.
