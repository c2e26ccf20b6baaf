(** C74: the block of the base quaternion of the Jacobian of the static torques, and the gradient. *)
From Coq Require Import Reals List Arith Lia Lra Bool FunctionalExtensionality.
From Coquelicot Require Import Coquelicot.
From Verif Require Import Spec PartialLib SpecQuaternion Quaternion QuaternionProofs.
From Verif Require Import QuatCurve SpecRigid Rigid RigidCalc KinTree KinModel KinLib KinMotion KinUsers KinProofs KinExist KinInstance.
From Verif Require Import SpecBase BaseProofs PropBase SpecFeet SpecMom MomModel MomProofs PropMom SpecStatic StaticModel StaticProofs StaticCalc PropStatic CmmProofs.
From Verif Require Import SpecTorque TorqueModel TorqueProofs CostsModel PropTorque TorqueJoints PropTorqueJoints.
Import ListNotations.
Local Open Scope R_scope.

Lemma qmat_conj n : qmat (InverseQuaternion n) = mtr (qmat n).
Proof. unfold qmat, mtr, qrot, SpecQuaternion.cross, qvec, delta, InverseQuaternion. cbn. f_equal; ring. Qed.
(** The derivative of a vector seen from the base. *)
Lemma unturned_D q F k : 0 < qnorm2 q -> (k < 4)%nat ->
  is_derive_v3 (fun t => mv (mtr (qmat (qunit (vset q k t)))) F) (q k) (turned_by_quaternion q F k).
Proof.
  intros P Hk.
  assert (DN : forall i, (i < 4)%nat -> is_derive (fun t => InverseQuaternion (qunit (vset q k t)) i) (q k) (mulv 4 InverseQuaternionDerivative (fun i => NormalizedQuaternionDerivative q i k) i)).
  { intros i Hi. pose proof (unit_partial q k i P Hk Hi) as D. unfold mulv, InverseQuaternionDerivative. cbn [sumn].
    destruct i as [|[|[|[|i]]]]; [| | | |lia]; unfold InverseQuaternion; cbn [Nat.eqb].
    - eapply D_eq; [exact D|ring].
    - eapply D_eq; [exact (is_derive_opp _ _ _ D)|]. unfold opp; cbn; ring.
    - eapply D_eq; [exact (is_derive_opp _ _ _ D)|]. unfold opp; cbn; ring.
    - eapply D_eq; [exact (is_derive_opp _ _ _ D)|]. unfold opp; cbn; ring. }
  assert (Q : forall i, (i < 3)%nat -> is_derive (fun t => vent (mv (mtr (qmat (qunit (vset q k t)))) F) i) (q k) (vent (turned_by_quaternion q F k) i)).
  { intros i Hi. pose proof (rotated_D (fun t => InverseQuaternion (qunit (vset q k t))) (fun _ => F) (q k) _ v30 i Hi DN (v3_D_const F (q k))) as D. cbv beta in D.
    eapply is_derive_ext; [intros t; rewrite <- qmat_conj; reflexivity|]. eapply D_eq; [exact D|].
    rewrite mv_0, vset_same. unfold turned_by_quaternion. rewrite NQ by exact P.
    destruct i as [|[|[|i]]]; [| | |lia]; cbn [vent]; unfold vent, v30; cbn [vx vy vz]; ring. }
  pose proof (Q 0%nat ltac:(lia)) as Q0. pose proof (Q 1%nat ltac:(lia)) as Q1. pose proof (Q 2%nat ltac:(lia)) as Q2. split; [exact Q0|split; [exact Q1|exact Q2]].
Qed.
(** The balance is linear in the acceleration. *)
Lemma balance_add r place base up inertia A A' ext s f g : static_balance r place base up inertia A ext s f -> static_balance r place base up inertia A' (fun _ => v60) s g ->
  static_balance r place base up inertia (v6add A A') ext s (fun l => v6add (f l) (g l)).
Proof.
  intros F G l Hl. pose proof (F l Hl) as Fl. pose proof (G l Hl) as Gl. rewrite v6total_sum in Fl. rewrite v6total_sum in Gl. rewrite v6total_sum. rewrite !m6v_add, <- Fl, <- Gl.
  rewrite (v6sum_ext _ (fun c => if hangs base up c l then m6v (AdjW (relative r place s l c)) (v6add (f c) (g c)) else v60)
    (fun c => v6add (if hangs base up c l then m6v (AdjW (relative r place s l c)) (f c) else v60) (if hangs base up c l then m6v (AdjW (relative r place s l c)) (g c) else v60))).
  - rewrite v6sum_add. generalize (v6sum (r_links r) (fun c => if hangs base up c l then m6v (AdjW (relative r place s l c)) (f c) else v60)).
    generalize (v6sum (r_links r) (fun c => if hangs base up c l then m6v (AdjW (relative r place s l c)) (g c) else v60)).
    intros [[] []] [[] []]. destruct (f l) as [[] []], (g l) as [[] []], (ext l) as [[] []]. unfold v6add, v6opp, v60, vadd, vopp, v30. cbn. f_equal; f_equal; ring.
  - intros c _. destruct (hangs base up c l); [apply m6v_add|symmetry; apply v6add_0_r].
Qed.

Section Quat.
Variable r : robot.
Variable place : vec -> nat -> pose.
Variable dofs : nat.
Variable up : nat -> option (nat * nat).
Variable depth : nat -> nat.
Variable order : list nat.
Variable base : nat.
Variable child : nat -> nat.
Variable inertia : nat -> m6.
Variable pl : places.
Variable left right : foot.
Variable gravity : v3.
Variable torques : vec -> (nat -> v6) -> vec.
Variable derivative : vec -> (nat -> v6) -> mat.
Variable fjac : vec -> nat -> nat -> v6.
Variable quat : m3 -> vec.
Variable mass : vec -> nat -> v3.
Notation aq := (at_base_quaternion pl).
Notation aj := (at_joint_positions pl).
Notation joints x := (part x aj dofs).
Notation rel := (relative r place).
Notation contact := (contact_wrenches r place base dofs pl left right).
Notation from_world := (from_world r place base dofs pl).
Notation raw := (raw r place dofs base pl).
Notation jof := (foot_joints r place base dofs pl fjac quat).
Notation qb := (weight_block dofs pl gravity mass).
Notation qof := (foot_quaternion r place base dofs pl fjac).
Notation Jacobian := (torques_jacobian r place base dofs pl left right derivative fjac jof qb qof).
Hypothesis still : still_robot r place dofs up depth order base child.
Hypothesis feet : feet_ok r dofs pl left right.
Hypothesis oracle : computes r place dofs up base child inertia pl gravity torques fjac.
(** What the mass matrix is: the torques that a linear acceleration of the base asks for. *)
Definition mass_matrix : Prop := forall s a f, static_balance r place base up inertia (V6 a v30) (fun _ => v60) s f ->
  forall j jt, (j < dofs)%nat -> nth_error (r_joints r) j = Some jt -> v6dot (axis_of jt (child j)) (f (child j)) = vdot (mass s j) a.
Hypothesis heavy : mass_matrix.

Lemma quat_vset x k t : (k < 4)%nat -> part (vset x (aq + k) t) aq 4 = vset (part x aq 4) k t.
Proof.
  intros Hk. extensionality i. unfold part, vset. destruct (Nat.ltb_spec i 4) as [L|L]; destruct (Nat.eqb_spec i k) as [E|E]; subst; try lia.
  - rewrite Nat.eqb_refl. reflexivity.
  - destruct (Nat.eqb_spec (aq + i) (aq + k)); [lia|reflexivity].
  - reflexivity.
Qed.
Lemma quat_entry k : (k < 4)%nat -> in_range aq 4 (aq + k) = true /\ in_range aj dofs (aq + k) = false /\
  forall c, In c (foot_points left ++ foot_points right) -> in_range (fst c) 3 (aq + k) = false.
Proof.
  intros Hk. destruct feet as (_ & _ & _ & _ & _ & AP & QJ).
  assert (T : in_range aq 4 (aq + k) = true) by (apply andb_true_iff; split; [apply Nat.leb_le|apply Nat.ltb_lt]; lia).
  split; [exact T|]. split; [exact (QJ _ T)|]. intros c I. destruct (in_range (fst c) 3 (aq + k)) eqn:E; [|reflexivity]. destruct (AP c _ I E) as [F _]. rewrite F in T. discriminate.
Qed.
Lemma quat_at x k : (k < 4)%nat -> part x aq 4 k = x (aq + k)%nat.
Proof. intros Hk. unfold part. apply Nat.ltb_lt in Hk. rewrite Hk. reflexivity. Qed.
Notation B x := (qmat (qunit (part x aq 4))).
(** How the wrench of a foot moves. *)
Definition tilt (x : vec) (f : foot) (k : nat) : v6 :=
  vsum (map (fun c => let v := mv (mtr (rot (rel (joints x) base (foot_frame f)))) (turned_by_quaternion (part x aq 4) (part3 x (fst c)) k) in V6 v (mv (skew (snd c)) v)) (foot_points f)).
Lemma from_world_eq x f : from_world x f = mm (mtr (rot (rel (joints x) base f))) (mtr (B x)).
Proof. unfold TorqueModel.from_world, base_pose. cbn [pmul rot]. apply mtr_mm. Qed.
Lemma raw_Dq x f k : (k < 4)%nat -> 0 < qnorm2 (part x aq 4) -> (forall c, In c (foot_points f) -> in_range (fst c) 3 (aq + k) = false) ->
  is_derive_v6 (fun t => raw (vset x (aq + k) t) f (part3 (vset x (aq + k) t))) (x (aq + k)%nat) (tilt x f k).
Proof.
  intros Hk P O. unfold PropTorque.raw, tilt. destruct (quat_entry k Hk) as (_ & QJ & _).
  apply (vsum_D (fun c t => at_point (from_world (vset x (aq + k) t) (foot_frame f)) (snd c) (part3 (vset x (aq + k) t) (fst c)))). intros c I. cbv zeta.
  set (F3 := part3 x (fst c)). set (A := mtr (rot (rel (joints x) base (foot_frame f)))).
  assert (E : forall t, part3 (vset x (aq + k) t) (fst c) = F3).
  { intros t. rewrite part3_vset, (unit3_out _ _ (O c I)). unfold F3. destruct (part3 x (fst c)). unfold vadd, vscale, v30. cbn. f_equal; ring. }
  pose proof (unturned_D (part x aq 4) F3 k P Hk) as D0. rewrite (quat_at x k Hk) in D0.
  pose proof (v3_D_mv _ _ _ _ _ (m3_D_const A (x (aq + k)%nat)) D0) as D. cbv beta in D. rewrite mv_m30, vadd_0_l in D.
  pose proof (v3_D_mv _ _ _ _ _ (m3_D_const (skew (snd c)) (x (aq + k)%nat)) D) as D2. cbv beta in D2. rewrite mv_m30, vadd_0_l in D2.
  eapply (v6_D_ext (fun t => V6 (mv A (mv (mtr (qmat (qunit (vset (part x aq 4) k t)))) F3)) (mv (skew (snd c)) (mv A (mv (mtr (qmat (qunit (vset (part x aq 4) k t)))) F3))))); [|split; [exact D|exact D2]].
  intros t. cbv beta. rewrite E, at_point_eq, from_world_eq, (part_vset x _ t aj dofs QJ), (quat_vset x k t Hk), mv_mm. reflexivity.
Qed.
Notation off f := (AdjW (frame_offset r (foot_frame f))).
Definition changeq (x : vec) (f : foot) (k : nat) (t : R) : v6 := v6add (raw (vset x (aq + k) t) f (part3 (vset x (aq + k) t))) (v6opp (raw x f (part3 x))).
Lemma changeq_D x f k j : (k < 4)%nat -> 0 < qnorm2 (part x aq 4) -> (forall c, In c (foot_points f) -> in_range (fst c) 3 (aq + k) = false) ->
  is_derive (fun t => v6dot (fjac (joints x) (foot_frame f) j) (changeq x f k t)) (x (aq + k)%nat) (v6dot (fjac (joints x) (foot_frame f) j) (tilt x f k)).
Proof.
  intros Hk P O. apply v6dot_D.
  pose proof (v6_D_add _ _ _ _ _ (raw_Dq x f k Hk P O) (v6_D_const (v6opp (raw x f (part3 x))) (x (aq + k)%nat))) as D. cbv beta in D. rewrite v6add_0_r in D. exact D.
Qed.
Lemma wrench_changeq x f k t : foot_wrench r place base dofs pl (vset x (aq + k) t) f = v6add (foot_wrench r place base dofs pl x f) (m6v (off f) (changeq x f k t)).
Proof.
  rewrite !foot_wrench_eq, <- m6v_add. f_equal. unfold changeq. rewrite (v6add_comm _ (v6opp _)), <- v6add_assoc, v6add_opp, v6add_0_l. reflexivity.
Qed.
Definition fall (x : vec) (k : nat) (t : R) : v3 := vopp (mv (mtr (qmat (qunit (vset (part x aq 4) k t)))) gravity).
Lemma quat_change x k t j jt : (k < 4)%nat -> (j < dofs)%nat -> nth_error (r_joints r) j = Some jt ->
  torques (vset x (aq + k) t) (contact (vset x (aq + k) t)) j =
  torques x (contact x) j + vdot (mass (joints x) j) (vadd (fall x k t) (vopp (lin (rest_acceleration pl gravity x))))
  - v6dot (fjac (joints x) (foot_frame left) j) (changeq x left k t) - v6dot (fjac (joints x) (foot_frame right) j) (changeq x right k t).
Proof.
  intros Hk Hj EJ. pose proof still as ST. destruct ST as (rok & plc & trav & ord & one & Hb & kids & crossed). destruct (crossed j Hj) as (Hc & Nc & _).
  destruct feet as (FL & FR & NE & _). pose proof (fl_lt r rok _ FL) as HL. pose proof (fl_lt r rok _ FR) as HR. destruct (quat_entry k Hk) as (_ & QJ & _).
  set (A0 := rest_acceleration pl gravity x). set (A := rest_acceleration pl gravity (vset x (aq + k) t)). set (s := joints x).
  set (da := vadd (fall x k t) (vopp (lin A0))).
  assert (EA : A = v6add A0 (V6 da v30)).
  { unfold A, A0, rest_acceleration, da, fall. rewrite (quat_vset x k t Hk). unfold A0, rest_acceleration, v6add. cbn [lin ang]. f_equal; [|symmetry; apply vadd_0_r].
    destruct (vopp (mv (mtr (qmat (qunit (vset (part x aq 4) k t)))) gravity)), (vopp (mv (mtr (qmat (qunit (part x aq 4)))) gravity)). unfold vadd, vopp. cbn. f_equal; ring. }
  set (dL := m6v (off left) (changeq x left k t)). set (dR := m6v (off right) (changeq x right k t)).
  set (W1 := contact x). set (W2 := fun l => if (l =? frame_link r (foot_frame left))%nat then v6add (W1 l) dL else W1 l). set (W3 := contact (vset x (aq + k) t)).
  destruct (C73_balance_exists r place dofs up depth order base child inertia still A0 W1) as (f0 & B0). specialize (B0 s).
  destruct (C73_balance_exists r place dofs up depth order base child inertia still (V6 da v30) (fun _ => v60)) as (g & G). specialize (G s).
  destruct (C73_balance_exists r place dofs up depth order base child inertia still A W2) as (f2 & B2). specialize (B2 s).
  destruct (C73_balance_exists r place dofs up depth order base child inertia still A W3) as (f3 & B3). specialize (B3 s).
  pose proof (balance_add r place base up inertia A0 _ W1 s _ _ B0 G) as B1. rewrite <- EA in B1.
  assert (E0 : torques x W1 j = v6dot (axis_of jt (child j)) (f0 s (child j))) by (apply (proj1 oracle x W1 (f0 s)); auto).
  assert (E3 : torques (vset x (aq + k) t) W3 j = v6dot (axis_of jt (child j)) (f3 s (child j))).
  { apply (proj1 oracle (vset x (aq + k) t) W3 (f3 s)); auto. rewrite (part_vset x _ t aj dofs QJ). exact B3. }
  assert (S12 : forall l, (l < r_links r)%nat -> W2 l = if (l =? frame_link r (foot_frame left))%nat then v6add (W1 l) dL else W1 l) by reflexivity.
  assert (S23 : forall l, (l < r_links r)%nat -> W3 l = if (l =? frame_link r (foot_frame right))%nat then v6add (W2 l) dR else W2 l).
  { intros l _. unfold W3, W2, W1, contact_wrenches. rewrite !wrench_changeq. fold dL dR.
    destruct (Nat.eqb_spec l (frame_link r (foot_frame right))) as [E|E], (Nat.eqb_spec l (frame_link r (foot_frame left))) as [E'|E']; congruence. }
  destruct (load_effect r place up depth base inertia rok plc trav Hb A s W1 W2 _ dL _ _ HL S12 B1 B2 (child j) Hc Nc) as [X1 Y1].
  destruct (load_effect r place up depth base inertia rok plc trav Hb A s W2 W3 _ dR _ _ HR S23 B2 B3 (child j) Hc Nc) as [X2 Y2].
  pose proof (foot_work r place dofs up depth order base child inertia pl gravity torques fjac still oracle) as FW.
  destruct (FW s _ j jt FL Hj EJ (changeq x left k t)) as [L1 L2]. destruct (FW s _ j jt FR Hj EJ (changeq x right k t)) as [R1 R2].
  assert (T1 : v6dot (axis_of jt (child j)) (v6add (f0 s (child j)) (g s (child j))) = torques x W1 j + vdot (mass s j) da).
  { rewrite TorqueProofs.v6dot_add_r, E0. f_equal. exact (heavy s da (g s) G j jt Hj EJ). }
  assert (T2 : v6dot (axis_of jt (child j)) (f2 s (child j)) = torques x W1 j + vdot (mass s j) da - v6dot (fjac s (foot_frame left) j) (changeq x left k t)).
  { rewrite <- T1. destruct (ab_dec r base up depth trav Hb _ (child j) HL) as [H|H].
    - rewrite (X1 H), (TorqueProofs.v6dot_add_r _ _ (v6opp _)), v6dot_opp_r. unfold dL. rewrite (L1 H). ring.
    - rewrite (Y1 H), (L2 H). ring. }
  assert (T3 : v6dot (axis_of jt (child j)) (f3 s (child j)) = v6dot (axis_of jt (child j)) (f2 s (child j)) - v6dot (fjac s (foot_frame right) j) (changeq x right k t)).
  { destruct (ab_dec r base up depth trav Hb _ (child j) HR) as [H|H].
    - rewrite (X2 H), TorqueProofs.v6dot_add_r, v6dot_opp_r. unfold dR. rewrite (R1 H). ring.
    - rewrite (Y2 H), (R2 H). ring. }
  fold W3. rewrite E3, T3, T2. ring.
Qed.
Lemma vdot_D a f x d : is_derive_v3 f x d -> is_derive (fun t => vdot a (f t)) x (vdot a d).
Proof.
  intros D. pose proof (v6dot_D (V6 a v30) (fun t => V6 (f t) v30) x (V6 d v30) (conj D (v3_D_const v30 x))) as Q.
  eapply is_derive_ext; [|eapply D_eq; [exact Q|]]; [intros t|]; unfold v6dot, vdot, v30; cbn; ring.
Qed.
Lemma foot_quaternion_eq x f j k : qof f x j k = v6dot (fjac (joints x) (foot_frame f) j) (tilt x f k).
Proof.
  unfold foot_quaternion, tilt. cbv zeta. f_equal. f_equal. apply map_ext. intros c.
  replace (mm (from_world x (foot_frame f)) (rot (base_pose (part x aq 4) v30))) with (mtr (rot (rel (joints x) base (foot_frame f)))).
  - rewrite mv_mm. reflexivity.
  - rewrite from_world_eq. unfold base_pose. cbn [rot]. rewrite mm_assoc, rot_l, mm_I_r by apply base_rotation_always. reflexivity.
Qed.
(** The columns of the base quaternion, wherever it is not zero: the derivative of the torques, whatever the buffer held. *)
Theorem C74_quaternion_columns s x j k : (j < dofs)%nat -> (k < 4)%nat -> 0 < qnorm2 (part x aq 4) ->
  partial (fun y => torques y (contact y) j) x (aq + k) (Jacobian s x j (aq + k)%nat).
Proof.
  intros Hj Hk P. destruct (joint_of r place dofs up depth order base child still j Hj) as (jt & EJ).
  destruct (quat_entry k Hk) as (T & Q & O).
  assert (OL : forall c, In c (foot_points left) -> in_range (fst c) 3 (aq + k) = false) by (intros c I; apply O, in_or_app; auto).
  assert (OR : forall c, In c (foot_points right) -> in_range (fst c) 3 (aq + k) = false) by (intros c I; apply O, in_or_app; auto).
  unfold partial. apply (is_derive_ext _ _ _ _ (fun t => eq_sym (quat_change x k t j jt Hk Hj EJ))).
  assert (E : Jacobian s x j (aq + k)%nat = qb x j k - v6dot (fjac (joints x) (foot_frame left) j) (tilt x left k) - v6dot (fjac (joints x) (foot_frame right) j) (tilt x right k)).
  { rewrite <- !foot_quaternion_eq.
    assert (R0 : in_range 0 dofs j = true) by (apply andb_true_iff; split; [apply Nat.leb_le|apply Nat.ltb_lt]; lia).
    assert (S : forall f J, (forall c, In c (foot_points f) -> in_range (fst c) 3 (aq + k) = false) ->
      foot_jacobians r place base dofs pl fjac jof qof x f J j (aq + k)%nat = J j (aq + k)%nat - qof f x j k).
    { intros f J OF. unfold foot_jacobians. unfold set_block at 1. rewrite Q, andb_false_r. unfold set_block at 1. rewrite R0, T. cbn [andb]. rewrite Nat.sub_0_r. replace (aq + k - aq)%nat with k by lia. f_equal.
      exact (proj1 (force_loop r place dofs base pl fjac x f j (aq + k)%nat Hj (foot_points f) J) OF). }
    unfold torques_jacobian. rewrite (S right _ OR), (S left _ OL). unfold set_block at 1. rewrite R0, T. cbn [andb]. rewrite Nat.sub_0_r. replace (aq + k - aq)%nat with k by lia. reflexivity. }
  rewrite E. unfold Rminus.
  pose proof (v3_D_opp _ _ _ (unturned_D (part x aq 4) gravity k P Hk)) as DG. rewrite (quat_at x k Hk) in DG.
  pose proof (v3_D_add _ _ _ _ _ DG (v3_D_const (vopp (lin (rest_acceleration pl gravity x))) (x (aq + k)%nat))) as DA. cbv beta in DA. rewrite vadd_0_r in DA.
  pose proof (vdot_D (mass (joints x) j) _ _ _ DA) as DM. cbv beta in DM.
  assert (EQ : qb x j k = 0 + vdot (mass (joints x) j) (vopp (turned_by_quaternion (part x aq 4) gravity k))).
  { unfold weight_block. destruct (mass (joints x) j), (turned_by_quaternion (part x aq 4) gravity k). unfold vdot, vopp. cbn. ring. }
  rewrite EQ.
  exact (D_plus _ _ _ _ _ (D_plus _ _ _ _ _ (D_plus _ _ _ _ _ (is_derive_const (torques x (contact x) j) (x (aq + k)%nat)) DM) (is_derive_opp _ _ _ (changeq_D x left k j Hk P OL))) (is_derive_opp _ _ _ (changeq_D x right k j Hk P OR))).
Qed.
(** The gradient of the cost, after any calls; that with respect to the control is zero. *)
Theorem C74_gradient s x : calls_C73 r place dofs up order base child inertia pl gravity derivative ->
  reachable r place dofs base pl left right torques derivative fjac jof qb qof s ->
  0 < qnorm2 (part x aq 4) -> conjugate_quaternions quat (from_world x (foot_frame left)) -> conjugate_quaternions quat (from_world x (foot_frame right)) ->
  is_gradient (fun y => tc_eval r place base dofs pl left right torques s y) x (snd (tc_sgrad r place base dofs pl left right torques derivative fjac jof qb qof s x)) /\
  (forall k, snd (tc_cgrad s x) k = 0).
Proof.
  intros C73 RE P QL QR. apply (C74_gradient_of_blocks r place dofs up depth order base child inertia pl left right gravity torques derivative fjac jof qb qof still feet oracle s x RE).
  intros k H j Hj. destruct H as [H|H].
  - pose proof (in_range_le _ _ _ H) as E. rewrite <- E. apply andb_true_iff in H. destruct H as [H1 H2]. apply Nat.leb_le in H1. apply Nat.ltb_lt in H2.
    apply (C74_joint_columns r place dofs up depth order base child inertia pl left right gravity torques derivative fjac quat qb qof still feet oracle C73); auto. lia.
  - pose proof (in_range_le _ _ _ H) as E. rewrite <- E. apply andb_true_iff in H. destruct H as [H1 H2]. apply Nat.leb_le in H1. apply Nat.ltb_lt in H2.
    apply C74_quaternion_columns; auto. lia.
Qed.
End Quat.

(** * An example: the arm of PropTorqueJoints.v *)
Lemma balance_scale r place base up inertia A s f k : static_balance r place base up inertia A (fun _ => v60) s f ->
  static_balance r place base up inertia (v6scale k A) (fun _ => v60) s (fun l => v6scale k (f l)).
Proof.
  intros F l Hl. pose proof (F l Hl) as Fl. rewrite v6total_sum in Fl. rewrite v6total_sum. rewrite !m6v_scale, <- Fl.
  rewrite (v6sum_ext _ (fun c => if hangs base up c l then m6v (AdjW (relative r place s l c)) (v6scale k (f c)) else v60)
    (fun c => v6scale k (if hangs base up c l then m6v (AdjW (relative r place s l c)) (f c) else v60))).
  - assert (S : forall n h, v6sum n (fun i => v6scale k (h i)) = v6scale k (v6sum n h)).
    { intros n h. induction n as [|n IH]; cbn [v6sum]; [symmetry; apply v6scale_0|]. rewrite IH. symmetry. apply v6scale_add. }
    rewrite S. generalize (v6sum (r_links r) (fun c => if hangs base up c l then m6v (AdjW (relative r place s l c)) (f c) else v60)).
    intros [[] []]. destruct (f l) as [[] []]. unfold v6scale, v6add, v6opp, v60, vscale, vadd, vopp, v30. cbn. f_equal; f_equal; ring.
  - intros c _. destruct (hangs base up c l); [apply m6v_scale|symmetry; apply v6scale_0].
Qed.
Lemma arm_mass : exists mass, mass_matrix arm place 2 (up 0) 0 arm_child arm_inertia mass.
Proof.
  destruct (rest_still arm place 2 (up 0) (depth 0) [0%nat; 1%nat; 2%nat] 0 arm_child arm_inertia arm_still) as (n & B).
  set (T := fun (a : v3) s j => v6dot (axis_of (nth j (r_joints arm) no_joint) (arm_child j)) (rest arm place (up 0) 0 arm_inertia (V6 a v30) (fun _ => v60) s n (arm_child j))).
  exists (fun s j => V3 (T (V3 1 0 0) s j) (T (V3 0 1 0) s j) (T (V3 0 0 1) s j)). intros s a f F j jt Hj EJ.
  pose proof (balance_scale _ _ _ _ _ _ _ _ (SpecRigid.vx a) (B (V6 (V3 1 0 0) v30) (fun _ => v60) s)) as B1.
  pose proof (balance_scale _ _ _ _ _ _ _ _ (SpecRigid.vy a) (B (V6 (V3 0 1 0) v30) (fun _ => v60) s)) as B2.
  pose proof (balance_scale _ _ _ _ _ _ _ _ (SpecRigid.vz a) (B (V6 (V3 0 0 1) v30) (fun _ => v60) s)) as B3.
  pose proof (balance_add _ _ _ _ _ _ _ _ _ _ _ (balance_add _ _ _ _ _ _ _ _ _ _ _ B1 B2) B3) as S. cbv beta in S.
  replace (v6add _ _) with (V6 a v30) in S by (destruct a; unfold v6scale, v6add, vscale, vadd, v30; cbn; f_equal; f_equal; ring).
  rewrite (C73_balance_unique arm place 2 (up 0) (depth 0) [0%nat; 1%nat; 2%nat] 0 arm_child arm_inertia arm_still _ _ _ _ _ F S (arm_child j)) by (unfold arm_child; cbn; lia).
  rewrite !TorqueProofs.v6dot_add_r, !v6dot_scale_r. unfold T. rewrite (nth_error_nth _ _ no_joint EJ). destruct a. unfold vdot. cbn [SpecRigid.vx SpecRigid.vy SpecRigid.vz]. ring.
Qed.
(** The base may be turned in any way: every column of the quaternion is exact. *)
Example arm_quaternion_column gravity derivative quat s x j k : (j < 2)%nat -> (k < 4)%nat -> 0 < qnorm2 (part x 0 4) -> exists torques mass,
  computes arm place 2 (up 0) 0 arm_child arm_inertia arm_places gravity torques (fun s f i => jac s 0%nat f i) /\
  partial (fun y => torques y (contact_wrenches arm place 0 2 arm_places arm_left arm_right y) j) x k
    (torques_jacobian arm place 0 2 arm_places arm_left arm_right derivative (fun s f i => jac s 0%nat f i)
       (foot_joints arm place 0 2 arm_places (fun s f i => jac s 0%nat f i) quat) (weight_block 2 arm_places gravity mass)
       (foot_quaternion arm place 0 2 arm_places (fun s f i => jac s 0%nat f i)) s x j k).
Proof.
  intros Hj Hk P. destruct (arm_computes arm_inertia gravity) as (torques & C). destruct arm_mass as (mass & M). exists torques, mass. split; [exact C|].
  exact (C74_quaternion_columns arm place 2 (up 0) (depth 0) _ 0 arm_child arm_inertia arm_places arm_left arm_right gravity torques derivative _ quat mass arm_still arm_feet C M s x j k Hj Hk P).
Qed.
(** The gradient of a new cost with weights w, the base and the hinge not turned. *)
Example arm_gradient gravity w x : x 0%nat = 1 -> x 1%nat = 0 -> x 2%nat = 0 -> x 3%nat = 0 -> x 4%nat = 0 -> exists torques derivative quat mass,
  let fjac := fun s f i => jac s 0%nat f i in let s := fst (tc_set_weights (tc_ctor 2) 2 w) in
  computes arm place 2 (up 0) 0 arm_child arm_inertia arm_places gravity torques fjac /\ snd (tc_weights s) = w /\
  is_gradient (fun y => tc_eval arm place 0 2 arm_places arm_left4 arm_right torques s y) x
    (snd (tc_sgrad arm place 0 2 arm_places arm_left4 arm_right torques derivative fjac
      (foot_joints arm place 0 2 arm_places fjac quat) (weight_block 2 arm_places gravity mass) (foot_quaternion arm place 0 2 arm_places fjac) s x)).
Proof.
  intros Q0 Q1 Q2 Q3 J0. destruct (arm_computes arm_inertia gravity) as (torques & C). destruct (arm_calls gravity) as (derivative & H73). destruct arm_mass as (mass & M).
  exists torques, derivative, (fun _ => qident), mass. destruct (arm_conjugate x Q0 Q1 Q2 Q3 J0) as [CL CR]. cbv zeta. split; [exact C|]. split; [reflexivity|].
  refine (proj1 (C74_gradient arm place 2 (up 0) (depth 0) _ 0 arm_child arm_inertia arm_places arm_left4 arm_right gravity torques derivative _ (fun _ => qident) mass arm_still arm_feet4 C M _ x H73 _ _ CL CR)).
  - apply reach_weights, reach_ctor.
  - unfold qnorm2, part. cbn. rewrite Q0, Q1, Q2, Q3. lra.
Qed.
Print Assumptions C74_quaternion_columns.
Print Assumptions C74_gradient.
