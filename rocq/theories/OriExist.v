(** The hypotheses of C66 can be met: a Jacobian of the frame, the map of the quaternions, the set of the states. *)
From Coq Require Import Reals List Arith Lia Lra Bool FunctionalExtensionality.
From Coquelicot Require Import Coquelicot.
From Verif Require Import Spec PartialLib QuadLib SpecQuaternion SpecRigid SpecBase SpecFeet SpecCom SpecOri SpecDerivatives Rigid RigidCalc KinTree ConstraintsModel CostsModel Quaternion QuaternionProofs.
From Verif Require Import KinModel KinLib KinMotion KinProofs QuatCurve PropKin BaseModel BaseProofs PropBase SymModel SymProofs FeetModel FeetProofs OriModel OriMix OriCode PropContact KinExist.
Import ListNotations.
Local Open Scope R_scope.

(** ** QuaternionRightTrivializedDerivative: 1/2 [-v^T; w I - v^] *)
Definition right_map (q : vec) : mat := fun k a =>
  1 / 2 * match k, a with
      | O, 0%nat => - q 1%nat | O, 1%nat => - q 2%nat | O, 2%nat => - q 3%nat
      | 1%nat, 0%nat => q 0%nat | 1%nat, 1%nat => q 3%nat | 1%nat, 2%nat => - q 2%nat
      | 2%nat, 0%nat => - q 3%nat | 2%nat, 1%nat => q 0%nat | 2%nat, 2%nat => q 1%nat
      | 3%nat, 0%nat => q 2%nat | 3%nat, 1%nat => - q 1%nat | 3%nat, 2%nat => q 0%nat
      | _, _ => 0 end.
Lemma right_left n w i : qnorm2 n = 1 -> (i < 4)%nat -> mulv 3 (QuaternionLeftTrivializedDerivative n) (vent (mv (mtr (qmat n)) w)) i = sumn 3 (fun a => right_map n i a * vent w a).
Proof.
  intros U Hi. unfold qnorm2 in U. unfold mulv, QuaternionLeftTrivializedDerivative, tail3, identity, Quaternion.skew, right_map, qmat, qrot, SpecQuaternion.cross, qvec, delta, mv, mtr.
  destruct w as [a b c].
  destruct i as [|[|[|[|i]]]]; [| | | |lia]; cbn; generalize dependent (n 0%nat); generalize dependent (n 1%nat); generalize dependent (n 2%nat); generalize dependent (n 3%nat); intros z y x u U.
  all: apply (Rmult_eq_reg_l 2); [|lra]; field_simplify.
  all: assert (E : u * u = 1 - x * x - y * y - z * z) by lra; ring [E].
Qed.
Lemma right_map_ok : right_trivialized_back right_map.
Proof.
  intros n x e w U DN DM k Hk. pose proof (qmat_rot (n x) (U x)) as RQ. rewrite (skew_rot_tr _ w RQ) in DM.
  rewrite (quat_curve n (fun t => qmat (n t)) x e (mv (mtr (qmat (n x))) w) (fun t => qmat_rep (n t) (U t)) RQ DN DM k Hk). apply right_left; auto.
Qed.

Lemma continuous_pos (h : R -> R) x : continuous h x -> 0 < h x -> locally x (fun t => 0 < h t).
Proof. intros C P. apply C. exists (mkposreal (h x) P). intros y B. change (Rabs (y - h x) < h x) in B. apply Rabs_def2 in B. cbn in B. lra. Qed.
Section Exists.
Variable r : robot.
Variable place : vec -> nat -> pose.
Variable dofs : nat.
Variable up : nat -> nat -> option (nat * nat).
Variable depth : nat -> nat -> nat.
Variable base : nat.
Variable jac : vec -> nat -> nat -> nat -> v6.
Variable fvel : env -> nat -> v6.
Variable btw : env -> v6.
Variable quat : m3 -> vec.
Hypothesis K : kinematics r place dofs up depth base jac fvel btw quat.
Variable f : nat.
Hypothesis F : is_frame r f.
Notation rel := (relative r place).
(** ** The Jacobian of the frame: the angular velocity of the base, and those of the joints seen in the world *)
Definition spin_jacobian (q p s : vec) : mat := fun i c =>
  if (c <? 3)%nat then 0 else if (c <? 6)%nat then delta (i - 3)%nat (c - 3)%nat else vent (mv (mm (qmat (qunit q)) (rot (rel s base f))) (ang (jac s base f (c - 6)%nat))) (i - 3)%nat.
Lemma ang_sum n (g : nat -> v6) (sd : vec) A i : (i < 3)%nat -> vent (mv A (ang (v6sum n (fun k => v6scale (sd k) (g k))))) i = sumn n (fun k => vent (mv A (ang (g k))) i * sd k).
Proof.
  intros Hi. induction n as [|n IH]; cbn [v6sum sumn]; [unfold mv; destruct i as [|[|[|i]]]; [| | |lia]; cbn; ring|]. rewrite <- IH. set (B := v6sum n _).
  destruct i as [|[|[|i]]]; [| | |lia]; unfold mv, v6add, v6scale, vscale, vadd; cbn; ring.
Qed.
Lemma spin_jacobian_ok q p s : frame_spin r place base f dofs (base_pose q (vec3_of p)) s (spin_jacobian q p s).
Proof.
  intros H sc x v w sd [MR MP] EH ES D. cbv zeta.
  assert (B : frame_ok r base) by (unfold frame_ok; pose proof (k_base _ _ _ _ _ _ _ _ _ _ K); lia).
  pose proof (rel_curve r place dofs up depth jac (k_robot _ _ _ _ _ _ _ _ _ _ K) (k_place _ _ _ _ _ _ _ _ _ _ K) (k_trav _ _ _ _ _ _ _ _ _ _ K) (k_dofs _ _ _ _ _ _ _ _ _ _ K) (k_jac _ _ _ _ _ _ _ _ _ _ K) base f sc x sd B F (fun k _ => D k)) as [RC _].
  pose proof (m3_D_mul _ _ _ _ _ MR RC) as Q. cbv beta in Q. cbn [rot pmul]. rewrite EH, ES in *. cbn [rot base_pose] in *.
  set (Rb := qmat (qunit q)) in *. set (Rr := rot (rel s base f)) in *. set (W := ang (JV dofs jac s sd base f)) in *.
  assert (RT : rotation (mm Rb Rr)). { apply rotation_mm; [apply base_rotation_always|]. apply (rel_rigid r place (k_robot _ _ _ _ _ _ _ _ _ _ K) (k_place _ _ _ _ _ _ _ _ _ _ K)); auto. }
  match goal with |- is_derive_m3 _ _ (mm (SpecRigid.skew ?o) _) => assert (EO : o = vadd w (mv (mm Rb Rr) W)) end.
  { unfold spin_jacobian. fold Rb Rr.
    assert (Z : forall a, (a < 3)%nat -> sumn 3 (fun c => (if (c <? 3)%nat then 0 else if (c <? 6)%nat then delta (3 + a - 3)%nat (c - 3)%nat else vent (mv (mm Rb Rr) (ang (jac s base f (c - 6)%nat))) (3 + a - 3)%nat) * vent v c) = 0) by (intros a Ha; cbn; ring).
    assert (Y : forall a, (a < 3)%nat -> sumn 3 (fun c => (if (3 + c <? 3)%nat then 0 else if (3 + c <? 6)%nat then delta (3 + a - 3)%nat (3 + c - 3)%nat else vent (mv (mm Rb Rr) (ang (jac s base f (3 + c - 6)%nat))) (3 + a - 3)%nat) * vent w c) = vent w a)
      by (intros a Ha; destruct a as [|[|[|a]]]; [| | |lia]; unfold delta; cbn; ring).
    assert (X : forall a, (a < 3)%nat -> sumn dofs (fun k => (if (6 + k <? 3)%nat then 0 else if (6 + k <? 6)%nat then delta (3 + a - 3)%nat (6 + k - 3)%nat else vent (mv (mm Rb Rr) (ang (jac s base f (6 + k - 6)%nat))) (3 + a - 3)%nat) * sd k) = vent (mv (mm Rb Rr) W) a).
    { intros a Ha. unfold W, JV. rewrite (ang_sum dofs _ sd (mm Rb Rr) a Ha). apply sumn_ext. intros k Hk. change (6 + k <? 3)%nat with false. change (6 + k <? 6)%nat with false. cbv iota.
      replace (6 + k - 6)%nat with k by lia. replace (3 + a - 3)%nat with a by lia. reflexivity. }
    rewrite !Z, !Y, !X by lia. unfold vadd. cbn [vent]. f_equal; ring. }
  rewrite EO. rewrite skew_add, mm_add_l. rewrite <- skew_rot by exact RT. rewrite !mm_assoc in *. exact Q.
Qed.

(** ** The states that are not half a turn away *)
Variable Rd : m3.
Hypothesis RD : rotation Rd.
Hypothesis PQ : positive_quaternion quat.
Hypothesis PD : (0 < dofs)%nat.
Variable c : ori_cfg.
Hypothesis CF : fo_frame c = f.
Notation op := (fo_pos c).
Notation oq := (fo_quat c).
Notation os := (fo_joints c).
Hypothesis APQ : apart op 3 oq 4.
Hypothesis APS : apart op 3 os dofs.
Hypothesis AQS : apart oq 4 os dofs.
Notation RX := (ori_state dofs c (fun _ _ => 0)).
Notation Err := (err_value base rel quat Rd f).
Notation Turned := (turned r place base Rd f).
Lemma real_part A : rotation A -> quat A 0%nat = sqrt (1 + mtrace A) / 2 /\ 0 <= 1 + mtrace A.
Proof.
  intros RA. destruct (k_quat _ _ _ _ _ _ _ _ _ _ K A RA) as [U RP]. pose proof (PQ A RA) as P.
  assert (EA : A = qmat (quat A)). { apply same_action. intros v i Hi. rewrite <- (RP v i Hi). apply (proj2 (qmat_rep (quat A) U) v i Hi). }
  assert (T : 1 + mtrace A = (2 * quat A 0%nat) * (2 * quat A 0%nat)).
  { rewrite EA at 1. unfold qnorm2 in U. unfold mtrace, qmat, qrot, SpecQuaternion.cross, qvec, delta. cbn. generalize dependent (quat A 0%nat). generalize dependent (quat A 1%nat). generalize dependent (quat A 2%nat). generalize dependent (quat A 3%nat). intros z y x u U P. nra. }
  split; [|rewrite T; apply Rle_0_sqr]. rewrite T, sqrt_square by lra. field.
Qed.
Lemma imaginary_part A : rotation A ->
  4 * quat A 0%nat * quat A 1%nat = a21 A - a12 A /\ 4 * quat A 0%nat * quat A 2%nat = a02 A - a20 A /\ 4 * quat A 0%nat * quat A 3%nat = a10 A - a01 A.
Proof.
  intros RA. destruct (k_quat _ _ _ _ _ _ _ _ _ _ K A RA) as [U RP].
  assert (EA : A = qmat (quat A)). { apply same_action. intros v i Hi. rewrite <- (RP v i Hi). apply (proj2 (qmat_rep (quat A) U) v i Hi). }
  split; [|split]; match goal with |- ?l = _ => set (L := l) end; rewrite EA; unfold L, qmat, qrot, SpecQuaternion.cross, qvec, delta; cbn; ring.
Qed.
(** Along a curve of rotations. *)
Lemma quat_smooth (A : R -> m3) x dA : (forall t, rotation (A t)) -> is_derive_m3 A x dA -> -1 < mtrace (A x) -> forall k, (k < 4)%nat -> ex_derive (fun t => quat (A t) k) x.
Proof.
  intros RA DA T.
  assert (DT : is_derive (fun t => 1 + mtrace (A t)) x (0 + (a00 dA + a11 dA + a22 dA))).
  { destruct DA as ((D0 & _) & (_ & D4 & _) & (_ & _ & D8)). unfold mtrace. apply D_plus; [apply (D_const 1)|]. apply D_plus; [apply D_plus|]; assumption. }
  assert (E0 : ex_derive (fun t => quat (A t) 0%nat) x).
  { apply (ex_derive_ext (fun t => sqrt (1 + mtrace (A t)) / 2)); [intros t; symmetry; apply real_part; apply RA|].
    eexists. eapply D_eq; [apply D_mult; [apply (is_derive_comp sqrt (fun t => 1 + mtrace (A t)) x); [apply is_derive_Reals, derivable_pt_lim_sqrt; lra|exact DT]|exact (D_const (/ 2) x)]|reflexivity]. }
  assert (P0 : 0 < quat (A x) 0%nat). { rewrite (proj1 (real_part (A x) (RA x))). apply Rdiv_lt_0_compat; [apply sqrt_lt_R0; lra|lra]. }
  assert (LP : locally x (fun t => 0 < quat (A t) 0%nat)).
  { apply (continuous_pos (fun t => quat (A t) 0%nat) x); [|exact P0]. exact (@ex_derive_continuous R_AbsRing R_NormedModule (fun t => quat (A t) 0%nat) x E0). }
  assert (CA : forall a b : R, 0 < a -> 4 * a * b / (4 * a) = b) by (intros a b Ha; field; lra).
  assert (GEN : forall (h : R -> R) k, ex_derive h x -> (forall t, 4 * quat (A t) 0%nat * quat (A t) k = h t) -> ex_derive (fun t => quat (A t) k) x).
  { intros h k H EH. apply (ex_derive_ext_loc (fun t => h t / (4 * quat (A t) 0%nat))).
    - eapply filter_imp; [|exact LP]. intros t Pt. cbv beta in Pt. rewrite <- EH. apply CA. exact Pt.
    - apply ex_derive_div; [exact H| |lra]. apply ex_derive_mult; [apply ex_derive_const|exact E0]. }
  intros k Hk. destruct DA as ((_ & D1 & D2) & (D3 & _ & D5) & (D6 & D7 & _)). destruct k as [|[|[|[|k]]]]; [exact E0| | | |lia].
  - apply (GEN (fun t => a21 (A t) - a12 (A t))); [eexists; apply D_minus; eassumption|]. intros t. apply imaginary_part. apply RA.
  - apply (GEN (fun t => a02 (A t) - a20 (A t))); [eexists; apply D_minus; eassumption|]. intros t. apply imaginary_part. apply RA.
  - apply (GEN (fun t => a10 (A t) - a01 (A t))); [eexists; apply D_minus; eassumption|]. intros t. apply imaginary_part. apply RA.
Qed.
(** The rotation from the desired orientation, along a coordinate of the state. *)
Lemma turned_curve x i : 0 < qnorm2 (part x oq 4) -> exists dA, is_derive_m3 (fun t => Turned (RX (vset x i t))) (x i) dA.
Proof.
  intros P. destruct (in_range oq 4 i) eqn:IQ; [|destruct (in_range os dofs i) eqn:IS].
  - pose proof (proj1 (in_range_spec _ _ _) IQ). eexists. eapply m3_D_ext; [intros t; rewrite (move_q dofs c APQ AQS) by exact IQ; reflexivity|].
    pose proof (turned_D r place dofs up depth base jac fvel btw quat Rd f K F (RX x) v_q (i - oq) (or_introl eq_refl) P ltac:(change (vdim dofs v_q) with 4%nat; lia)) as G.
    rewrite (RX_q dofs c (fun _ _ => 0) x), part_in in G by exact IQ. exact G.
  - pose proof (proj1 (in_range_spec _ _ _) IS). eexists. eapply m3_D_ext; [intros t; rewrite (move_s dofs c APS AQS) by exact IS; reflexivity|].
    pose proof (turned_D r place dofs up depth base jac fvel btw quat Rd f K F (RX x) v_s (i - os) (or_intror eq_refl) P ltac:(change (vdim dofs v_s) with dofs; lia)) as G.
    rewrite (RX_s dofs c (fun _ _ => 0) x), part_in in G by exact IS. exact G.
  - exists m30. apply (m3_D_ext (fun _ => Turned (RX x))); [|apply m3_D_const]. intros t. unfold turned. rewrite !(stay dofs c (fun _ _ => 0) x i t) by auto. reflexivity.
Qed.
Lemma half_turn_ok : coordinate_open (below_half_turn r place base f op oq os dofs Rd) /\ error_smooth r place base f quat op oq os dofs Rd (below_half_turn r place base f op oq os dofs Rd).
Proof.
  assert (TR : forall rho, rotation (Turned rho)) by (intros rho; apply (turned_rot r place dofs up depth base jac fvel btw quat Rd f K RD F)).
  assert (ET : forall y, mm (mtr Rd) (world_rotation r place base f (part y oq 4) (part y op 3) (part y os dofs)) = Turned (RX y)) by reflexivity.
  split.
  - intros x i [P T]. rewrite ET in T. destruct (turned_curve x i P) as [dA DA]. apply filter_and.
    + destruct (in_range oq 4 i) eqn:IQ.
      * eapply filter_imp; [|rewrite <- (part_in x oq 4 i IQ); apply (vset_near (part x oq 4) (i - oq) P)]. intros t Pt. cbv beta in Pt. rewrite part_vset, IQ. exact Pt.
      * apply filter_forall. intros t. rewrite part_vset, IQ. exact P.
    + apply (filter_imp (fun t => 0 < 1 + mtrace (Turned (RX (vset x i t))))); [intros t Q; rewrite ET; lra|].
      destruct DA as ((D0 & _) & (_ & D4 & _) & (_ & _ & D8)).
      assert (DT : is_derive (fun t => 1 + mtrace (Turned (RX (vset x i t)))) (x i) (0 + (a00 dA + a11 dA + a22 dA))).
      { unfold mtrace. apply D_plus; [apply (D_const 1)|]. apply D_plus; [apply D_plus|]; assumption. }
      apply (continuous_pos (fun t => 1 + mtrace (Turned (RX (vset x i t))))); [|rewrite vset_same; lra].
      exact (@ex_derive_continuous R_AbsRing R_NormedModule (fun t => 1 + mtrace (Turned (RX (vset x i t)))) (x i) (ex_intro _ _ DT)).
  - intros x [P T]. split; [exact P|]. intros i k Hk. destruct (turned_curve x i P) as [dA DA]. cbv zeta. rewrite ET in T.
    apply (quat_smooth (fun t => Turned (RX (vset x i t))) (x i) dA); auto. rewrite vset_same. exact T.
Qed.
(** The cost: the weight times one minus the cosine of half the angle. *)
Lemma half_angle w x : orientation_cost r place base f quat op oq os dofs Rd w x =
  w * (1 - sqrt (1 + mtrace (mm (mtr Rd) (world_rotation r place base f (part x oq 4) (part x op 3) (part x os dofs)))) / 2).
Proof.
  assert (RA : rotation (mm (mtr Rd) (world_rotation r place base f (part x oq 4) (part x op 3) (part x os dofs)))) by (apply (turned_rot r place dofs up depth base jac fvel btw quat Rd f K RD F (RX x))).
  unfold orientation_cost, orientation_distance, orientation_error. set (A := mm (mtr Rd) _) in *. rewrite <- (proj1 (real_part A RA)).
  pose proof (proj1 (real_part m3I rotation_I)) as I0. destruct (imaginary_part m3I rotation_I) as (I1 & I2 & I3). replace (1 + mtrace m3I) with (2 * 2) in I0 by (unfold mtrace; cbn; ring). rewrite sqrt_square in I0 by lra.
  rewrite I0 in I1, I2, I3. cbn in I1, I2, I3. destruct (k_quat _ _ _ _ _ _ _ _ _ _ K A RA) as [U _]. unfold qnorm2 in U. cbn [sumn]. rewrite I0.
  replace (quat m3I 1%nat) with 0 by lra. replace (quat m3I 2%nat) with 0 by lra. replace (quat m3I 3%nat) with 0 by lra.
  transitivity (w / 2 * (quat A 0%nat * quat A 0%nat + quat A 1%nat * quat A 1%nat + quat A 2%nat * quat A 2%nat + quat A 3%nat * quat A 3%nat - 2 * quat A 0%nat + 1)); [field|]. rewrite U. field.
Qed.
End Exists.
