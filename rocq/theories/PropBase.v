(** C60, C61: the expressions of the base (normalised quaternion, rotation, twist) and the quaternion error. *)
From Coq Require Import Reals List Arith Lia Lra Bool QArith FunctionalExtensionality.
From Coquelicot Require Import Coquelicot.
From Verif Require Import Spec PartialLib SpecQuaternion Quaternion QuaternionProofs.
From Verif Require Import SpecRigid SpecBase SpecDerivatives Rigid RigidCalc KinTree KinModel KinLib QuatCurve KinMotion KinProofs KinExist KinInstance PropKin BaseModel BaseProofs.
Import ListNotations.
Local Open Scope R_scope.

Section Base.
Variable dofs : nat.
Variable ue : nat -> env -> mat.          (* the values of the kinematic expressions: they play no role here *)
Notation Meaning := (meaning (vdim dofs) urows (ucols dofs) ue).
Definition vec3 (x : vec) : v3 := V3 (x 0%nat) (x 1%nat) (x 2%nat).

(** ** C60 *)
Theorem C60_normalized_quaternion rho : 0 < qnorm2 (rho v_q) ->
  (forall i, (i < 4)%nat -> Meaning rho (normalized v_q) i 0%nat = qunit (rho v_q) i) /\ qnorm2 (qunit (rho v_q)) = 1.
Proof.
  intros P. split; [|apply qunit_norm; auto]. intros i Hi. destruct (normalized_unit dofs ue rho P) as (_ & _ & _ & E). apply E; auto.
Qed.
(** baseRotation is the rotation of the quaternion. *)
Theorem C60_base_rotation rho : 0 < qnorm2 (rho v_q) -> exists A, rotation A /\ represents (qunit (rho v_q)) A /\
  forall i j, (i < 3)%nat -> (j < 3)%nat -> Meaning rho base_rotation i j = ment A i j.
Proof.
  intros P. exists (qmat (qunit (rho v_q))). pose proof (qunit_norm _ P) as U. split; [apply qmat_rot; auto|]. split; [apply qmat_rep; auto|].
  intros i j Hi Hj. destruct (rotation_den dofs ue rho _ _ (normalized_unit dofs ue rho P)) as (_ & _ & _ & E). apply E; auto.
Qed.
(** BodyTwistFromQuaternionVelocity: when the quaternion of the base moves with the quaternion velocity and the origin
    with the linear velocity (seen in the base), the base moves with this twist; if the quaternion is not of unit norm the
    angular part is the true one times the norm. *)
Theorem C60_body_twist rho (qc : R -> vec) (pc : R -> v3) x : 0 < qnorm2 (rho v_q) ->
  (forall k, qc x k = rho v_q k) -> (forall k, (k < 4)%nat -> is_derive (fun t => qc t k) x (rho v_qdot k)) ->
  is_derive_v3 pc x (mv (qmat (qunit (rho v_q))) (vec3 (rho v_lin))) ->
  exists w, moves (fun t => base_pose (qc t) (pc t)) x w /\
    forall i, (i < 6)%nat -> Meaning rho (body_twist (FVar v_lin) (FVar v_qdot) (normalized v_q)) i 0%nat =
      v6ent (V6 (lin w) (vscale (sqrt (qnorm2 (rho v_q))) (ang w))) i.
Proof.
  intros P E DQ DP. assert (EQ : qc x = rho v_q) by (apply functional_extensionality; auto).
  exists (V6 (vec3 (rho v_lin)) (vscale (1 / sqrt (qnorm2 (qc x))) (Ginv3 (qunit (qc x)) (rho v_qdot)))). split.
  - apply base_moves; rewrite ?EQ; auto.
  - intros i Hi. rewrite EQ.
    destruct (body_den dofs ue rho _ _ _ _ _ _ (den_var (vdim dofs) urows (ucols dofs) ue rho v_lin) (den_var (vdim dofs) urows (ucols dofs) ue rho v_qdot) (normalized_unit dofs ue rho P)) as (_ & _ & _ & Q).
    rewrite Q by auto. f_equal. f_equal. cbn [ang]. pose proof (sqrt_lt_R0 _ P). destruct (Ginv3 _ _). unfold vscale. cbn. f_equal; field; lra.
Qed.
(** With a unit quaternion, the constraint that is always imposed, it is exactly the twist of the base. *)
Corollary C60_body_twist_unit rho (qc : R -> vec) (pc : R -> v3) x : qnorm2 (rho v_q) = 1 ->
  (forall k, qc x k = rho v_q k) -> (forall k, (k < 4)%nat -> is_derive (fun t => qc t k) x (rho v_qdot k)) ->
  is_derive_v3 pc x (mv (qmat (qunit (rho v_q))) (vec3 (rho v_lin))) ->
  exists w, moves (fun t => base_pose (qc t) (pc t)) x w /\
    forall i, (i < 6)%nat -> Meaning rho (body_twist (FVar v_lin) (FVar v_qdot) (normalized v_q)) i 0%nat = v6ent w i.
Proof.
  intros U E DQ DP. destruct (C60_body_twist rho qc pc x ltac:(lra) E DQ DP) as (w & Mv & Q). exists w. split; [exact Mv|].
  intros i Hi. rewrite Q by auto. rewrite U, sqrt_1. destruct w as [l [a b c]]. unfold vscale. cbn [lin ang vx vy vz]. rewrite !Rmult_1_l. reflexivity.
Qed.
(** The baseTwist of ExpressionsServer has the same linear part and the angular part seen in the inertial frame. *)
Theorem C60_base_twist_inertial rho : 0 < qnorm2 (rho v_q) -> exists l a,
  (forall i, (i < 6)%nat -> Meaning rho (body_twist (FVar v_lin) (FVar v_qdot) (normalized v_q)) i 0%nat = v6ent (V6 l a) i) /\
  (forall i, (i < 6)%nat -> Meaning rho base_twist i 0%nat = v6ent (V6 l (mv (qmat (qunit (rho v_q))) a)) i).
Proof.
  intros P. exists (vec3 (rho v_lin)), (Ginv3 (qunit (rho v_q)) (rho v_qdot)). split; intros i Hi.
  - destruct (body_den dofs ue rho _ _ _ _ _ _ (den_var (vdim dofs) urows (ucols dofs) ue rho v_lin) (den_var (vdim dofs) urows (ucols dofs) ue rho v_qdot) (normalized_unit dofs ue rho P)) as (_ & _ & _ & Q).
    apply Q; auto.
  - destruct (base_twist_den dofs ue rho P) as (_ & _ & _ & Q). rewrite Q by auto. rewrite E_is_RG by (apply qunit_norm; auto). reflexivity.
Qed.
(** So it is the twist of the base, as BodyTwistFromQuaternionVelocity and the state given to iDynTree
    (SharedKinDynComputations.cpp:73) are, if and only if the base turns around an axis that its rotation leaves still. *)
Theorem C60_base_twist_iff rho l a : 0 < qnorm2 (rho v_q) ->
  (forall i, (i < 6)%nat -> Meaning rho (body_twist (FVar v_lin) (FVar v_qdot) (normalized v_q)) i 0%nat = v6ent (V6 l a) i) ->
  ((forall i, (i < 6)%nat -> Meaning rho base_twist i 0%nat = Meaning rho (body_twist (FVar v_lin) (FVar v_qdot) (normalized v_q)) i 0%nat) <->
   mv (qmat (qunit (rho v_q))) a = a).
Proof.
  intros P HB. destruct (C60_base_twist_inertial rho P) as (l' & a' & B & I).
  assert (E : V6 l a = V6 l' a') by (apply v6ent_inj; intros i Hi; rewrite <- HB, <- B by auto; reflexivity). injection E as <- <-.
  split.
  - intros H. assert (Q : V6 l (mv (qmat (qunit (rho v_q))) a) = V6 l a) by (apply v6ent_inj; intros i Hi; rewrite <- I, <- B by auto; auto).
    injection Q as Q. exact Q.
  - intros H i Hi. rewrite I, B by auto. rewrite H. reflexivity.
Qed.
End Base.

(** The default base twist satisfies the hypotheses of C59. *)
Definition twist_dep (v : nat) : bool := ((v =? v_q) || (v =? v_lin) || (v =? v_qdot) || (v =? v_twist))%nat.
Lemma default_twist_good r place dofs up base jac fvel quat :
  good_twist r place dofs up base default_twist twist_dep jac fvel quat.
Proof.
  split; [reflexivity|]. split.
  { cbn [well_formed default_twist]. 
    assert (W : well_formed (vdim dofs) urows (ucols dofs) (ueval r dofs up base default_twist (relative r place) jac fvel quat) base_twist).
    { refine (proj1 (base_twist_den dofs _ (fun _ _ => 1) _)). unfold qnorm2. lra. }
    split; [exact W|]. split; [reflexivity|]. split; [reflexivity|]. split; [reflexivity|].
    intros rho x i Hi. reflexivity. }
  split; [reflexivity|]. split; [reflexivity|]. split; [reflexivity|]. split; [reflexivity|].
  intros v Hv rho x i Hi. unfold twist_dep in Hv. apply orb_false_elim in Hv as [Hv E6]. apply orb_false_elim in Hv as [Hv E5]. apply orb_false_elim in Hv as [E2 E4].
  assert (EQ : forall u, In u [v_q; v_lin; v_qdot; v_twist] -> env_set rho v x u = rho u).
  { intros u Hu. unfold env_set. destruct (Nat.eqb_spec u v) as [->|]; [|reflexivity].
    exfalso. rewrite Nat.eqb_neq in *. cbn in Hu. intuition congruence. }
  unfold default_twist, base_twist, normalized, scalar. cbn [meaning].
  rewrite !(EQ v_q), !(EQ v_lin), !(EQ v_qdot), !(EQ v_twist) by (cbn; tauto). reflexivity.
Qed.

Section Absolute.
Variable r : robot.
Variable place : vec -> nat -> pose.
Variable dofs : nat.
Variable up : nat -> nat -> option (nat * nat).
Variable depth : nat -> nat -> nat.
Variable base : nat.
Variable jac : vec -> nat -> nat -> nat -> v6.
Variable fvel : env -> nat -> v6.
Variable btw : env -> v6.
Variable quat : m3 -> vec.
Notation rel := (relative r place).
Notation UE := (ueval r dofs up base default_twist rel jac fvel quat).
Notation Meaning := (meaning (vdim dofs) urows (ucols dofs) UE).
Hypothesis K : kinematics r place dofs up depth base jac fvel btw quat.

(** The state in iDynTree has the velocity of the base given by the quaternion velocity (C60_body_twist). *)
Definition moving_base (rho : env) : Prop :=
  forall i, (i < 6)%nat -> Meaning rho (body_twist (FVar v_lin) (FVar v_qdot) (normalized v_q)) i 0%nat = v6ent (btw rho) i.
(** absoluteVelocity(frame), without a twist, is the velocity of the frame if and only if the rotation of the base leaves
    its angular velocity still. *)
Theorem C60_default_velocity_iff f rho : is_frame r f -> 0 < qnorm2 (rho v_q) -> moving_base rho -> (forall i, rho v_twist i = 0) ->
  ((forall i, (i < 6)%nat -> Meaning rho (absvel base default_twist f) i 0%nat = v6ent (fvel rho f) i) <->
   mv (qmat (qunit (rho v_q))) (ang (btw rho)) = ang (btw rho)).
Proof.
  intros F P MB TZ.
  destruct K as (K1 & K2 & K3 & K4 & K5 & K6 & K7 & K8).
  assert (FW : forall b, frame_velocity r place base (rho v_s) (rho v_sdot) b f (W r place dofs jac base (rho v_s) (rho v_sdot) b f)).
  { intros b. apply (W_velocity r place dofs up depth base jac K1 K2 K3 K4 K6 K5 (rho v_s) (rho v_sdot) b f F). }
  destruct (btw rho) as [l a] eqn:EB. 
  assert (TI : forall i, (i < 6)%nat -> Meaning rho default_twist i 0%nat = v6ent (V6 l (mv (qmat (qunit (rho v_q))) a)) i).
  { intros i Hi. destruct (C60_base_twist_inertial dofs UE rho P) as (l' & a' & B & I).
    assert (E : V6 l a = V6 l' a') by (apply v6ent_inj; intros k Hk; rewrite <- B, <- EB by auto; symmetry; apply MB; auto). injection E as <- <-.
    change (Meaning rho base_twist i 0%nat + rho v_twist i = v6ent (V6 l (mv (qmat (qunit (rho v_q))) a)) i). rewrite TZ, I by auto. ring. }
  destruct (C59_absolute_velocity r place dofs up depth base default_twist twist_dep jac fvel btw quat K (default_twist_good r place dofs up base jac fvel quat) f rho _ F TI) as (w & FV & E).
  assert (EW : w = W r place dofs jac base (rho v_s) (rho v_sdot) (V6 l (mv (qmat (qunit (rho v_q))) a)) f)
    by exact (velocity_unique r place base K1 K2 K5 _ _ _ f _ _ F FV (FW _)).
  assert (EF : fvel rho f = W r place dofs jac base (rho v_s) (rho v_sdot) (V6 l a) f).
  { pose proof (K7 rho f F) as V. rewrite EB in V. exact (velocity_unique r place base K1 K2 K5 _ _ _ f _ _ F V (FW _)). }
  cbn [ang]. split.
  - intros H. assert (Q : w = fvel rho f) by (apply v6ent_inj; intros i Hi; rewrite <- E by auto; auto).
    rewrite EW, EF in Q. unfold W in Q.
    match type of Q with v6add ?x ?z = v6add ?y ?z => assert (Q2 : x = y) by (apply (f_equal (fun t => v6add t (v6opp z))) in Q; rewrite !v6add_assoc, !v6add_opp, !v6add_0_r in Q; exact Q) end.
    assert (B0 : is_frame r base) by (unfold is_frame; lia).
    apply (f_equal (m6v (Adj (pinv (rel (rho v_s) f base))))) in Q2. rewrite <- !m6v_mul, Adj_inv_l, !m6v_I in Q2 by (apply (rel_rigid r place K1 K2); auto).
    injection Q2 as Q2. exact Q2.
  - intros H i Hi. rewrite E, EF, EW, H by auto. reflexivity.
Qed.
End Absolute.

(** A base turned by 180 degrees around x that turns around its own z axis. *)
Definition turned : env := fun u i =>
  match u, i with 2%nat, 1%nat => 1 | 5%nat, 2%nat => - (1 / 2) | _, _ => 0 end.
Definition spin (rho : env) : v6 := V6 (vec3 (rho v_lin)) (Ginv3 (qunit (rho v_q)) (rho v_qdot)).
Example arm_kinematics_spin : kinematics arm place 2 up depth 0 jac (fvel_with spin) spin quat_of.
Proof.
  split; [apply arm_ok|]. split; [apply arm_placement|]. split; [apply arm_traversal|]. split; [cbn; lia|]. split; [cbn; lia|].
  split; [apply arm_jac|]. split; [intros; apply arm_fvel; auto|apply quat_of_ok].
Qed.
Example spin_moving rho : 0 < qnorm2 (rho v_q) -> moving_base arm place 2 up 0 jac (fvel_with spin) spin quat_of rho.
Proof.
  intros P i Hi.
  destruct (body_den 2 (ueval arm 2 up 0 default_twist (relative arm place) jac (fvel_with spin) quat_of) rho _ _ _ _ _ _ (den_var (vdim 2) urows (ucols 2) _ rho v_lin) (den_var (vdim 2) urows (ucols 2) _ rho v_qdot) (normalized_unit 2 _ rho P)) as (_ & _ & _ & Q).
  rewrite Q by auto. reflexivity.
Qed.
Theorem C60_default_velocity_refuted : exists r place dofs up depth base jac fvel btw quat f rho,
  kinematics r place dofs up depth base jac fvel btw quat /\ is_frame r f /\ qnorm2 (rho v_q) = 1 /\
  moving_base r place dofs up base jac fvel btw quat rho /\ (forall i, rho v_twist i = 0) /\
  ~ forall i, (i < 6)%nat -> meaning (vdim dofs) urows (ucols dofs) (ueval r dofs up base default_twist (relative r place) jac fvel quat) rho (absvel base default_twist f) i 0%nat = v6ent (fvel rho f) i.
Proof.
  exists arm, place, 2%nat, up, depth, 0%nat, jac, (fvel_with spin), spin, quat_of, 1%nat, turned.
  assert (U : qnorm2 (turned v_q) = 1) by (unfold qnorm2; cbn; ring).
  split; [apply arm_kinematics_spin|]. split; [unfold is_frame; cbn; lia|]. split; [exact U|]. split; [apply spin_moving; lra|]. split; [reflexivity|].
  rewrite (C60_default_velocity_iff _ _ _ _ _ _ _ _ _ _ arm_kinematics_spin 1 turned); [|unfold is_frame; cbn; lia|lra|apply spin_moving; lra|reflexivity].
  intros H. apply (f_equal vz) in H. unfold spin in H. cbn [ang] in H. rewrite Ginv3_eq in H. unfold mv, qmat, qrot, SpecQuaternion.cross, qvec, delta, qunit in H. rewrite U, sqrt_1 in H. cbn in H. lra.
Qed.
(** The hypotheses of C60_body_twist: a base that turns. *)
Example turning_base : exists (qc : R -> vec) (pc : R -> v3),
  qnorm2 (turned v_q) = 1 /\ (forall k, qc 0 k = turned v_q k) /\ (forall k, (k < 4)%nat -> is_derive (fun t => qc t k) 0 (turned v_qdot k)) /\
  is_derive_v3 pc 0 (mv (qmat (qunit (turned v_q))) (vec3 (turned v_lin))) /\ exists k, turned v_qdot k <> 0.
Proof.
  exists (fun t i => match i with 1%nat => 1 | 2%nat => - (1 / 2) * t | _ => 0 end), (fun _ => v30).
  split; [unfold qnorm2; cbn; ring|]. split.
  - intros k. destruct k as [|[|[|k]]]; cbn; ring.
  - split; [|split].
    + intros k Hk. destruct k as [|[|[|[|k]]]]; [| | | |lia]; cbn; auto_derive; auto; ring.
    + replace (mv _ _) with v30; [apply v3_D_const|]. unfold vec3, turned, v_lin. cbn. symmetry. apply mv_0.
    + exists 2%nat. cbn. lra.
Qed.

(** ** C61: the quaternion error *)
Lemma base_rotation_always q : rotation (qmat (qunit q)).
Proof.
  destruct (Rlt_dec 0 (qnorm2 q)) as [P|P]; [apply qmat_rot, qunit_norm; auto|].
  replace (qunit q) with (fun _ : nat => 0).
  - replace (qmat (fun _ => 0)) with m3I; [apply rotation_I|]. unfold m3I, qmat, qrot, SpecQuaternion.cross, qvec, delta. cbn. f_equal; ring.
  - apply functional_extensionality. intros i. unfold qunit. rewrite sqrt_neg_0 by lra. unfold Rdiv. rewrite Rinv_0. ring.
Qed.
Lemma vset_near q j : 0 < qnorm2 q -> locally (q j) (fun t => 0 < qnorm2 (vset q j t)).
Proof.
  intros P. assert (C : continuous (fun t => qnorm2 (vset q j t)) (q j)).
  { apply (@ex_derive_continuous R_AbsRing R_NormedModule (fun t => qnorm2 (vset q j t))). assert (V : forall k, ex_derive (fun t => vset q j t k) (q j)).
    { intros k. unfold vset. destruct (Nat.eqb k j); [apply ex_derive_id|apply ex_derive_const]. }
    eexists. exact (qnorm_poly _ _ _ _ (q j) _ _ _ _ (Derive_correct _ _ (V 0%nat)) (Derive_correct _ _ (V 1%nat)) (Derive_correct _ _ (V 2%nat)) (Derive_correct _ _ (V 3%nat))). }
  apply C. change (locally (qnorm2 (vset q j (q j))) (fun y => 0 < y)). rewrite vset_same. apply open_gt. exact P.
Qed.
Section Error.
Variable r : robot.
Variable place : vec -> nat -> pose.
Variable dofs : nat.
Variable up : nat -> nat -> option (nat * nat).
Variable depth : nat -> nat -> nat.
Variable base : nat.
Variable bt : formula.
Variable jac : vec -> nat -> nat -> nat -> v6.
Variable fvel : env -> nat -> v6.
Variable btw : env -> v6.
Variable quat : m3 -> vec.
Variable Rd : m3.
Notation rel := (relative r place).
Notation UE := (with_err base rel quat Rd (ueval r dofs up base bt rel jac fvel quat)).
Notation VD := (vdim dofs).
Notation UC := (ucols dofs).
Notation Meaning := (meaning VD urows UC UE).
Notation Rows := (frows VD urows UC).
Notation Cols := (fcols VD urows UC).
Notation Well_formed := (well_formed VD urows UC UE).
Notation Den := (den VD urows UC UE).
Hypothesis K : kinematics r place dofs up depth base jac fvel btw quat.
Hypothesis RD : rotation Rd.
Lemma e_code k : match k with KOther _ => False | _ => True end -> UE (code k) = val r dofs up base bt rel jac fvel quat k.
Proof. intros H. apply functional_extensionality. intros rho. unfold with_err, ueval. rewrite !decode_code. destruct k; try reflexivity. contradiction. Qed.
Lemma e_leaf rho f : Den rho (leaf (KOther f)) 4 1 (fun i _ => err_value base rel quat Rd f rho i).
Proof. eapply den_ext; [apply (leaf_den dofs UE rho (KOther f))|]. intros i j Hi Hj. unfold with_err. rewrite decode_code. reflexivity. Qed.
Lemma base_is : is_frame r base. Proof. destruct K as (_ & _ & _ & _ & B & _). unfold is_frame. lia. Qed.
Lemma e_jac rho f g : is_frame r f -> is_frame r g -> Den rho (reljac dofs f g) 6 dofs (fun i j => v6ent (jac (rho v_s) f g j) i).
Proof.
  intros F G. destruct K as (K1 & K2 & K3 & K4 & K5 & K6 & K7 & K8). unfold reljac. destruct (Nat.eqb_spec f g) as [->|N].
  - eapply den_ext; [apply den_null|]. intros i j Hi Hj. cbv beta.
    destruct (reljac_den r place dofs up depth base bt jac fvel quat K1 K2 K3 K4 K6 rho g g G G) as (_ & _ & _ & E). rewrite <- E by auto.
    unfold reljac. rewrite Nat.eqb_refl. reflexivity.
  - eapply den_ext; [apply (leaf_den dofs UE rho (KJac f g))|]. intros i j Hi Hj. rewrite e_code by exact Logic.I. reflexivity.
Qed.
Lemma e_rot rho f g : is_frame r f -> is_frame r g -> Den rho (relrot f g) 3 3 (ment (rot (rel (rho v_s) f g))).
Proof.
  intros F G. destruct K as (K1 & K2 & K3 & K4 & K5 & K6 & K7 & K8). unfold relrot. destruct (Nat.eqb_spec f g) as [->|N].
  - rewrite (rel_same r place K1 K2) by auto. eapply den_ext; [apply den_ident|]. intros i j Hi Hj. cbv beta. split3 i; split3 j; reflexivity.
  - eapply den_ext; [apply (den_block VD urows UC UE rho _ 6 6 (m6ent (Adj (rel (rho v_s) f g)))); [apply (adj_den r place dofs jac fvel quat K1 K2 UE (fun w a b => e_code (KAdj w a b) Logic.I) false); auto|lia|lia]|].
    intros i j Hi Hj. cbv beta. split3 i; split3 j; reflexivity.
Qed.
Notation Err := (err_value base rel quat Rd).
(** The value represents the rotation of the frame, seen from the desired one. *)
Theorem C61_error_value f rho : is_frame r f ->
  represents (fun i => Meaning rho (leaf (KOther f)) i 0%nat) (mm (mtr Rd) (frame_rotation base rel (rho v_q) (rho v_s) f)).
Proof.
  intros F. pose proof base_is as B. destruct K as (K1 & K2 & K3 & K4 & K5 & K6 & K7 & K8).
  destruct (K8 (mm (mtr Rd) (frame_rotation base rel (rho v_q) (rho v_s) f))) as [Q1 Q2].
  { apply rotation_mm; [apply rotation_tr; auto|]. apply rotation_mm; [apply base_rotation_always|]. apply (rel_rigid r place K1 K2); auto. }
  destruct (e_leaf rho f) as (_ & _ & _ & E). split.
  - unfold qnorm2. rewrite !E by lia. exact Q1.
  - intros v i Hi. rewrite <- Q2 by auto. unfold qrot, SpecQuaternion.cross, qvec, err_value in *. split3 i; rewrite !E by lia; reflexivity.
Qed.
(** A frame that is exactly as desired has the error quaternion of the identity. *)
Theorem C61_error_zero f rho : is_frame r f -> frame_rotation base rel (rho v_q) (rho v_s) f = Rd ->
  represents (fun i => Meaning rho (leaf (KOther f)) i 0%nat) m3I.
Proof. intros F E. pose proof (C61_error_value f rho F) as H. rewrite E, rot_l in H by auto. exact H. Qed.

(** [X] is the derivative with respect to [v] wherever the quaternion is differentiable. *)
Definition error_derivative (f v : nat) (X : formula) : Prop :=
  Rows X = 4%nat /\ Cols X = VD v /\ Well_formed X /\
  forall rho j, 0 < qnorm2 (rho v_q) -> (j < VD v)%nat ->
    (forall k, (k < 4)%nat -> ex_derive (fun x => Err f (at_entry rho v j x) k) (rho v j)) ->
    forall i, (i < 4)%nat -> is_derive (fun x => Err f (at_entry rho v j x) i) (rho v j) (Meaning rho X i j).
Lemma R_mm_chain A B C : is_derive_m3 A B C -> is_derive_m3 (fun t => mm (mtr Rd) (A t)) B (mm (mtr Rd) C).
Proof.
  intros D. pose proof (m3_D_mul (fun _ => mtr Rd) A B _ _ (m3_D_const (mtr Rd) B) D) as H. cbv beta in H. rewrite mm_0_l, madd_0_l in H. exact H.
Qed.
Theorem C61_error_joints v_des f : is_frame r f -> exists X, err_derivative dofs base v_des f v_s = Some X /\ error_derivative f v_s X.
Proof.
  intros F. pose proof base_is as B. exists (err_joints dofs base f). split; [reflexivity|].
  assert (D : forall rho, Den rho (err_joints dofs base f) 4 dofs
     (fun i j => mulv 3 (QuaternionLeftTrivializedDerivative (Err f rho)) (vent (ang (jac (rho v_s) base f j))) i)).
  { intros rho. unfold err_joints.
    pose proof (den_transp VD urows UC UE rho _ _ _ _ (G_den r dofs ltac:(apply K) UE rho _ _ (e_leaf rho f))) as DG.
    pose proof (den_scal VD urows UC UE rho (scalar (1 / 2)) _ 4 3 (1 / 2) _ (den_const VD urows UC UE rho 1 1 _) DG) as DH.
    eapply den_ext; [eapply den_mul; [exact DH|apply (den_block VD urows UC UE rho _ 6 dofs _ 3 0 3 dofs (e_jac rho base f B F)); lia]|].
    intros i j Hi Hj. cbv beta. unfold mulv. apply sumn_ext. intros k Hk.
    replace (v6ent (jac (rho v_s) base f (0 + j)%nat) (3 + k)%nat) with (vent (ang (jac (rho v_s) base f j)) k); [lra|].
    unfold v6ent. cbn [Nat.add]. split3 k; reflexivity. }
  destruct (D (fun _ _ => 0)) as (Wf & R0 & C0 & _). split; [exact R0|]. split; [exact C0|]. split; [exact Wf|].
  intros rho j P Hj H i Hi. destruct (D rho) as (_ & _ & _ & E). rewrite E by auto.
  destruct K as (K1 & K2 & K3 & K4 & K5 & K6 & K7 & K8). cbn [vdim v_s] in Hj.
  eapply D_eq; [apply Derive_correct, H; auto|].
  pose proof (K6 (rho v_s) base f j B F Hj) as [DR _].
  set (A := fun x => mm (mtr Rd) (mm (qmat (qunit (rho v_q))) (rot (rel (vset (rho v_s) j x) base f)))).
  pose proof (quat_curve (fun x => Err f (at_entry rho v_s j x)) A (rho v_s j) (fun k => Derive (fun x => Err f (at_entry rho v_s j x) k) (rho v_s j)) (ang (jac (rho v_s) base f j))) as C.
  assert (EV : forall x, Err f (at_entry rho v_s j x) = quat (A x)).
  { intros x. unfold err_value, frame_rotation. rewrite at_same, at_other by discriminate. reflexivity. }
  assert (E0 : Err f (at_entry rho v_s j (rho v_s j)) = Err f rho). { rewrite EV. unfold A. rewrite vset_same. reflexivity. }
  cbv beta in C. rewrite E0 in C. apply C; auto.
  - intros t. rewrite EV. apply K8. apply rotation_mm; [apply rotation_tr; auto|]. apply rotation_mm; [apply base_rotation_always|]. apply (rel_rigid r place K1 K2); auto.
  - apply rotation_mm; [apply rotation_tr; auto|]. apply rotation_mm; [apply base_rotation_always|]. apply (rel_rigid r place K1 K2); auto.
  - intros k Hk. apply Derive_correct, H; auto.
  - cbv beta in DR. 
    pose proof (m3_D_mul (fun _ => qmat (qunit (rho v_q))) _ _ _ _ (m3_D_const (qmat (qunit (rho v_q))) (rho v_s j)) DR) as DM. cbv beta in DM. rewrite mm_0_l, madd_0_l in DM.
    apply R_mm_chain in DM. unfold A. rewrite !vset_same in *. rewrite !mm_assoc. exact DM.
Qed.
Theorem C61_error_quaternion v_des f : is_frame r f -> exists X, err_derivative dofs base v_des f v_q = Some X /\ error_derivative f v_q X.
Proof.
  intros F. pose proof base_is as B. exists (err_quaternion base f). split; [reflexivity|].
  assert (DW : forall rho, den VD urows UC UE rho (FDeriv (normalized v_q) 0 v_q) 4 4 (fun i j => Derive (fun t => Meaning (at_entry rho v_q j t) (normalized v_q) i 0%nat) (rho v_q j))).
  { intros rho. destruct (normalized_den dofs UE rho) as (Wf & R0 & C0 & _). split; [split; [exact Wf|rewrite C0; lia]|]. split; [exact R0|]. split; [reflexivity|]. intros i j Hi Hj. reflexivity. }
  assert (DF : forall rho n, Den rho (normalized v_q) 4 1 (fun i _ => n i) -> Den rho (err_quaternion base f) 4 4
     (fun i j => sumn 4 (fun l => sumn 3 (fun k => sumn 3 (fun m => 2 * QuaternionLeftTrivializedDerivative (Err f rho) i m * ment (rot (rel (rho v_s) f base)) m k) *
         (2 * QuaternionLeftTrivializedDerivative n l k)) * Derive (fun t => Meaning (at_entry rho v_q j t) (normalized v_q) l 0%nat) (rho v_q j)))).
  { intros rho n DN. unfold err_quaternion.
    pose proof (den_transp VD urows UC UE rho _ _ _ _ (G_den r dofs ltac:(apply K) UE rho _ _ (e_leaf rho f))) as DG.
    pose proof (den_mul VD urows UC UE rho _ _ 4 3 3 _ _ DG (e_rot rho f base F B)) as D1.
    pose proof (den_mul VD urows UC UE rho _ _ 4 3 4 _ _ D1 (G_den r dofs ltac:(apply K) UE rho _ _ DN)) as D2.
    exact (den_mul VD urows UC UE rho _ _ 4 4 4 _ _ D2 (DW rho)). }
  destruct (DF (fun _ _ => 0) _ (normalized_den dofs UE _)) as (Wf & R0 & C0 & _). split; [exact R0|]. split; [exact C0|]. split; [exact Wf|].
  intros rho j P Hj H i Hi. destruct (DF rho _ (normalized_unit dofs UE rho P)) as (_ & _ & _ & E). rewrite E by auto. clear E DF DW.
  destruct K as (K1 & K2 & K3 & K4 & K5 & K6 & K7 & K8). cbn [vdim v_q] in Hj.
  set (ej := fun k => delta k j).
  assert (VS : forall k, (k < 4)%nat -> is_derive (fun t => vset (rho v_q) j t k) (rho v_q j) (ej k)).
  { intros k Hk. unfold vset, ej, delta. destruct (Nat.eqb k j); [eapply D_eq; [apply (@is_derive_id R_AbsRing)|reflexivity]|apply D_const]. }
  set (n := qunit (rho v_q)). set (dn := unit_rate (rho v_q) ej).
  assert (QX : vset (rho v_q) j (rho v_q j) = rho v_q) by apply vset_same.
  assert (DN : forall l, (l < 4)%nat -> Derive (fun t => Meaning (at_entry rho v_q j t) (normalized v_q) l 0%nat) (rho v_q j) = dn l).
  { intros l Hl. apply is_derive_unique.
    pose proof (unit_D (fun t => vset (rho v_q) j t) (rho v_q j) ej) as U. cbv beta in U. rewrite QX in U.
    eapply is_derive_ext_loc; [|exact (U P VS l Hl)].
    generalize (vset_near (rho v_q) j P). apply filter_imp. intros t Ht.
    assert (Ht' : 0 < qnorm2 (at_entry rho v_q j t v_q)) by (rewrite at_same; exact Ht).
    destruct (normalized_unit dofs UE (at_entry rho v_q j t) Ht') as (_ & _ & _ & En). rewrite En by lia. rewrite at_same. reflexivity. }
  set (Rbf := rot (rel (rho v_s) base f)). set (w := Ginv3 n dn).
  assert (RR : rotation Rbf) by (apply (rel_rigid r place K1 K2); auto).
  assert (RT : rot (rel (rho v_s) f base) = mtr Rbf) by (unfold Rbf; rewrite <- (rel_inv r place K1 K2 (rho v_s) base f) by auto; reflexivity).
  eapply D_eq; [apply Derive_correct, H; auto|].
  set (A := fun x => mm (mtr Rd) (mm (qmat (qunit (vset (rho v_q) j x))) Rbf)).
  pose proof (quat_curve (fun x => Err f (at_entry rho v_q j x)) A (rho v_q j) (fun k => Derive (fun x => Err f (at_entry rho v_q j x) k) (rho v_q j)) (mv (mtr Rbf) w)) as C.
  assert (EV : forall x, Err f (at_entry rho v_q j x) = quat (A x)).
  { intros x. unfold err_value, frame_rotation. rewrite at_same, at_other by discriminate. reflexivity. }
  assert (E0 : Err f (at_entry rho v_q j (rho v_q j)) = Err f rho). { rewrite EV. unfold A. rewrite QX. reflexivity. }
  cbv beta in C. rewrite E0 in C. rewrite C; auto; clear C.
  - transitivity (sumn 3 (fun m => QuaternionLeftTrivializedDerivative (Err f rho) i m * sumn 3 (fun k => ment (mtr Rbf) m k * vent w k))).
    + unfold mulv. apply sumn_ext. intros m Hm. f_equal. apply vent_mul; auto.
    + rewrite RT. transitivity (sumn 4 (fun l => sumn 3 (fun k => sumn 3 (fun m => 2 * QuaternionLeftTrivializedDerivative (Err f rho) i m * ment (mtr Rbf) m k) * (2 * QuaternionLeftTrivializedDerivative n l k)) * dn l)).
      * unfold w. rewrite Ginv3_eq. generalize (QuaternionLeftTrivializedDerivative (Err f rho) i) (ment (mtr Rbf)). intros g M. 
        unfold QuaternionLeftTrivializedDerivative, tail3, identity, Quaternion.skew. cbn. field.
      * apply sumn_ext. intros l Hl. rewrite DN by auto. reflexivity.
  - intros t. rewrite EV. apply K8. apply rotation_mm; [apply rotation_tr; auto|]. apply rotation_mm; [apply base_rotation_always|auto].
  - apply rotation_mm; [apply rotation_tr; auto|]. apply rotation_mm; [apply base_rotation_always|auto].
  - intros k Hk. apply Derive_correct, H; auto.
  - assert (DQ : is_derive_m3 (fun t => qmat (qunit (vset (rho v_q) j t))) (rho v_q j) (mm (qmat n) (skew w))).
    { pose proof (qmat_D (fun t => qunit (vset (rho v_q) j t)) (rho v_q j) dn) as G. cbv beta in G. rewrite QX in G. apply G.
      - apply qunit_norm; auto.
      - intros k Hk. pose proof (unit_D (fun t => vset (rho v_q) j t) (rho v_q j) ej) as U. cbv beta in U. rewrite QX in U. apply U; auto.
      - apply unit_rate_tangent; auto. }
    pose proof (m3_D_mul _ (fun _ => Rbf) _ _ _ DQ (m3_D_const Rbf (rho v_q j))) as DM. cbv beta in DM. rewrite mm_0_r, madd_0_r in DM.
    apply R_mm_chain in DM. unfold A. rewrite QX. fold n. rewrite !mm_assoc in *. rewrite (skew_rot_tr Rbf w RR) in DM. exact DM.
Qed.
(** Every other variable, except the desired quaternion for which no derivative is provided, gives zero. *)
Theorem C61_error_other v_des f v : v <> v_s -> v <> v_q -> v <> v_des -> exists X, err_derivative dofs base v_des f v = Some X /\ error_derivative f v X.
Proof.
  intros N1 N2 N3. exists (FNull 4 (VD v)). unfold err_derivative. apply Nat.eqb_neq in N1 as B1, N2 as B2, N3 as B3. rewrite B1, B2, B3. split; [reflexivity|].
  split; [reflexivity|]. split; [reflexivity|]. split; [exact Logic.I|]. intros rho j P Hj _ i Hi. cbn [meaning].
  eapply is_derive_ext; [|apply D_const]. intros x. unfold err_value, frame_rotation. rewrite !at_other by congruence. reflexivity.
Qed.
End Error.

(** The hypothesis on differentiability is met, for instance, by the hinge of the arm at zero with the base and the
    desired rotation at the identity. *)
Definition upright : env := fun u i => match u, i with 2%nat, 0%nat => 1 | _, _ => 0 end.
Example arm_error_smooth : 0 < qnorm2 (upright v_q) /\ rotation m3I /\ forall k, (k < 4)%nat ->
  ex_derive (fun x => err_value 0 (relative arm place) quat_of m3I 1 (at_entry upright v_s 0 x) k) (upright v_s 0%nat).
Proof.
  assert (U : qnorm2 (upright v_q) = 1) by (unfold qnorm2; cbn; ring).
  split; [lra|]. split; [apply rotation_I|]. intros k Hk.
  eapply ex_derive_ext; [|exact (arm_quaternion_smooth k Hk)]. intros x. cbn [val val1 val0].
  unfold err_value, frame_rotation. rewrite !at_same, (at_other _ _ _ _ v_q) by discriminate.
  rewrite mtr_I, mm_I_l. replace (qmat (qunit (upright v_q))) with m3I; [rewrite mm_I_l; reflexivity|].
  unfold m3I, qmat, qrot, SpecQuaternion.cross, qvec, delta, qunit. rewrite U, sqrt_1. cbn. f_equal; field.
Qed.
Print Assumptions C60_normalized_quaternion.
Print Assumptions C60_base_rotation.
Print Assumptions C60_body_twist.
Print Assumptions C60_body_twist_unit.
Print Assumptions C60_base_twist_inertial.
Print Assumptions C60_base_twist_iff.
Print Assumptions C60_default_velocity_iff.
Print Assumptions C60_default_velocity_refuted.
Print Assumptions C61_error_value.
Print Assumptions C61_error_zero.
Print Assumptions C61_error_joints.
Print Assumptions C61_error_quaternion.
Print Assumptions C61_error_other.
