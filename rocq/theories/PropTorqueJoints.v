(** C74: the block of the joints of the Jacobian of the static torques. *)
From Coq Require Import Reals List Arith Lia Lra Bool FunctionalExtensionality.
From Coquelicot Require Import Coquelicot.
From Verif Require Import Spec PartialLib SpecQuaternion Quaternion QuaternionProofs.
From Verif Require Import QuatCurve SpecRigid Rigid RigidCalc KinTree KinModel KinLib KinMotion KinUsers KinProofs KinExist KinInstance.
From Verif Require Import SpecBase BaseProofs PropBase SpecFeet SpecMom MomModel MomProofs PropMom SpecStatic StaticModel StaticProofs StaticCalc PropStatic.
From Verif Require Import SpecTorque TorqueModel TorqueProofs CostsModel PropTorque TorqueJoints.
Import ListNotations.
Local Open Scope R_scope.

(** What asQuaternion returns for the rotation R and for its inverse: unit quaternions of them, conjugate of each other. *)
Definition conjugate_quaternions (quat : m3 -> vec) (R : m3) : Prop :=
  represents (quat (mtr R)) (mtr R) /\ forall i, (i < 4)%nat -> quat R i = InverseQuaternion (quat (mtr R)) i.

Lemma conjugate_turns p T : rotation T -> represents p (mtr T) -> forall u i, (i < 3)%nat -> qrot (InverseQuaternion p) (vent u) i = vent (mv T u) i.
Proof.
  intros RT [N P] u i Hi. rewrite <- (Inverse_rot p (vent (mv T u)) i Hi N). apply qrot_ext; [|exact Hi]. intros k Hk.
  rewrite P by exact Hk. rewrite <- mv_mm, rot_l, mv_I by exact RT. reflexivity.
Qed.
Lemma cross_vent a b k : (k < 3)%nat -> SpecQuaternion.cross (vent a) (vent b) k = vent (mv (SpecRigid.skew a) b) k.
Proof. intros Hk. destruct a, b. destruct k as [|[|[|k]]]; [| | |lia]; unfold SpecQuaternion.cross, mv, SpecRigid.skew; cbn; ring. Qed.
Lemma turned_entry (T : m3) q p F w i : (i < 3)%nat -> rotation T -> represents p (mtr T) -> (forall k, (k < 4)%nat -> q k = InverseQuaternion p k) ->
  mulv 4 (RotatedVectorQuaternionJacobian (vent F) q) (mulv 4 InverseQuaternionDerivative (mulv 3 (QuaternionLeftTrivializedDerivative p) (vent w))) i =
  vent (mv (SpecRigid.skew (mv T F)) w) i.
Proof.
  intros Hi RT RP EQ. pose proof RP as [N P].
  assert (NI : qnorm2 (InverseQuaternion p) = 1) by (revert N; unfold qnorm2, InverseQuaternion; cbn [sumn]; intros N; rewrite <- N; ring).
  assert (EJ : forall j, RotatedVectorQuaternionJacobian (vent F) q i j = RotatedVectorQuaternionJacobian (vent F) (InverseQuaternion p) i j).
  { intros j. unfold RotatedVectorQuaternionJacobian, tail3, Quaternion.skew, Quaternion.identity. 
    pose proof (EQ 0%nat ltac:(lia)) as E0. pose proof (EQ 1%nat ltac:(lia)) as E1. pose proof (EQ 2%nat ltac:(lia)) as E2. pose proof (EQ 3%nat ltac:(lia)) as E3.
    destruct i as [|[|[|i]]]; [| | |lia]; destruct j as [|[|[|[|j]]]]; cbn; rewrite ?E0, ?E1, ?E2, ?E3; reflexivity. }
  transitivity (- mulv 4 (RotatedVectorQuaternionJacobian (vent F) (InverseQuaternion p)) (mulv 3 (QuaternionLeftTrivializedDerivative (InverseQuaternion p)) (qrot p (vent w))) i).
  { unfold mulv at 1. unfold mulv at 3. cbn [sumn]. rewrite !EJ, !(spin_back p (vent w)) by (auto; lia). ring. }
  rewrite Rotated_G by auto.
  transitivity (- qrot (InverseQuaternion p) (vent (mv (SpecRigid.skew (mv (mtr T) w)) F)) i).
  { f_equal. apply qrot_ext; [|exact Hi]. intros k Hk. rewrite <- cross_vent by exact Hk.
    pose proof (P w 0%nat ltac:(lia)) as E0. pose proof (P w 1%nat ltac:(lia)) as E1. pose proof (P w 2%nat ltac:(lia)) as E2.
    destruct k as [|[|[|k]]]; [| | |lia]; unfold SpecQuaternion.cross; rewrite ?E0, ?E1, ?E2; reflexivity. }
  rewrite (conjugate_turns p T RT RP) by exact Hi. rewrite <- mv_mm, skew_rot, <- (mv_mm T (mtr T)), rot_r, mv_I, mv_mm by exact RT.
  generalize (mv T F). intros [a b c]. destruct w. destruct i as [|[|[|i]]]; [| | |lia]; unfold mv, SpecRigid.skew; cbn; ring.
Qed.
Lemma turned_force_eq quat T F w : rotation T -> conjugate_quaternions quat T -> turned_force quat T F w = mv (SpecRigid.skew (mv T F)) w.
Proof.
  intros RT [RP EQ]. unfold turned_force. pose proof (fun i Hi => turned_entry T (quat T) (quat (mtr T)) F w i Hi RT RP EQ) as Q.
  rewrite (Q 0%nat), (Q 1%nat), (Q 2%nat) by lia. destruct (mv (SpecRigid.skew (mv T F)) w). reflexivity.
Qed.

Definition trace (T : m3) : R := a00 T + a11 T + a22 T.
(** The products of the real part with the entries of a quaternion of T. *)
Lemma real_products q T : represents q T -> 4 * (q 0%nat * q 0%nat) = 1 + trace T /\ 4 * (q 0%nat * q 1%nat) = a21 T - a12 T /\
  4 * (q 0%nat * q 2%nat) = a02 T - a20 T /\ 4 * (q 0%nat * q 3%nat) = a10 T - a01 T.
Proof.
  intros [N P]. destruct T as [t00 t01 t02 t10 t11 t12 t20 t21 t22].
  pose proof (P (V3 1 0 0) 0%nat ltac:(lia)) as X0. pose proof (P (V3 1 0 0) 1%nat ltac:(lia)) as X1. pose proof (P (V3 1 0 0) 2%nat ltac:(lia)) as X2.
  pose proof (P (V3 0 1 0) 0%nat ltac:(lia)) as Y0. pose proof (P (V3 0 1 0) 1%nat ltac:(lia)) as Y1. pose proof (P (V3 0 1 0) 2%nat ltac:(lia)) as Y2.
  pose proof (P (V3 0 0 1) 0%nat ltac:(lia)) as Z0. pose proof (P (V3 0 0 1) 1%nat ltac:(lia)) as Z1. pose proof (P (V3 0 0 1) 2%nat ltac:(lia)) as Z2.
  clear P. unfold qnorm2 in N. unfold trace, qrot, SpecQuaternion.cross, qvec, vent, mv in *. cbn in *. repeat split; lra.
Qed.
(** asQuaternion returns a unit quaternion of the rotation with a real part that is not negative (iDynTree): unless the foot is
    turned by half a turn, the quaternions of the rotation and of its inverse are conjugate. *)
Theorem C74_conjugate quat R : rotation R -> represents (quat R) R -> represents (quat (mtr R)) (mtr R) -> 0 <= quat R 0%nat -> 0 <= quat (mtr R) 0%nat ->
  trace R <> -1 -> conjugate_quaternions quat R.
Proof.
  intros RR Q P S1 S2 T. split; [exact P|].
  assert (I : represents (InverseQuaternion (quat (mtr R))) R).
  { split; [|intros v i Hi; apply conjugate_turns; auto]. destruct P as [N _]. revert N. unfold qnorm2, InverseQuaternion. intros N. rewrite <- N. ring. }
  destruct (real_products _ _ Q) as (A0 & A1 & A2 & A3). destruct (real_products _ _ I) as (B0 & B1 & B2 & B3). clear P Q I.
  set (q := quat R) in *. set (p := InverseQuaternion (quat (mtr R))) in *. assert (S3 : 0 <= p 0%nat) by exact S2.
  assert (E0 : q 0%nat = p 0%nat). { apply Rsqr_inj; auto. unfold Rsqr. lra. }
  assert (N0 : q 0%nat <> 0). { intros Z. apply T. rewrite Z in A0. lra. }
  assert (C : forall i, q 0%nat * q i = p 0%nat * p i -> q i = p i). { intros i H. rewrite <- E0 in H. exact (Rmult_eq_reg_l _ _ _ H N0). }
  intros i Hi. destruct i as [|[|[|[|i]]]]; [exact E0| | | |lia]; apply C; lra.
Qed.
(** At a half turn the force turns in the opposite direction in the block of the joints. *)
Theorem C74_half_turn_refuted quat T F w : rotation T -> represents (quat T) T -> trace T = -1 ->
  turned_force quat T F w = vopp (mv (SpecRigid.skew (mv T F)) w).
Proof.
  intros RT Q TR. destruct (real_products _ _ Q) as (A0 & A1 & A2 & A3).
  assert (Z : quat T 0%nat = 0). { apply Rsqr_0_uniq. unfold Rsqr. lra. }
  rewrite Z in A1, A2, A3. assert (S : mtr T = T). { destruct T as [t00 t01 t02 t10 t11 t12 t20 t21 t22]. unfold mtr. cbn in *. f_equal; lra. }
  assert (E : forall i, (i < 3)%nat ->
    mulv 4 (RotatedVectorQuaternionJacobian (vent F) (quat T)) (mulv 4 InverseQuaternionDerivative (mulv 3 (QuaternionLeftTrivializedDerivative (quat (mtr T))) (vent w))) i =
    - vent (mv (SpecRigid.skew (mv T F)) w) i).
  { intros i Hi. rewrite S. set (p := quat T) in *.
    rewrite <- (turned_entry T (InverseQuaternion p) p F w i Hi RT) by (rewrite ?S; auto). unfold mulv at 1. unfold mulv at 3. cbn [sumn]. rewrite !Rotated_eq by lia. unfold mat3mul, qvec, InverseQuaternion. rewrite Z.
    generalize (mulv 4 InverseQuaternionDerivative (mulv 3 (QuaternionLeftTrivializedDerivative p) (vent w))). intros u.
    destruct i as [|[|[|i]]]; [| | |lia]; unfold Quaternion.skew, Quaternion.identity, delta; cbn; ring. }
  unfold turned_force. rewrite (E 0%nat), (E 1%nat), (E 2%nat) by lia. destruct (mv (SpecRigid.skew (mv T F)) w). reflexivity.
Qed.

(** Half a turn about x, a force along y, the foot turning about x. *)
Example half_turn_example : exists T quat, rotation T /\ represents (quat T) T /\ trace T = -1 /\
  turned_force quat T (V3 0 1 0) (V3 1 0 0) = V3 0 0 (-1) /\ mv (SpecRigid.skew (mv T (V3 0 1 0))) (V3 1 0 0) = V3 0 0 1.
Proof.
  set (T := M3 1 0 0 0 (-1) 0 0 0 (-1)). set (quat := fun (_ : m3) (i : nat) => match i with 1%nat => 1 | _ => 0 end).
  assert (RT : rotation T) by (unfold rotation, T, mm, mtr, m3I, mdet; cbn; split; [f_equal; ring|ring]).
  assert (Q : represents (quat T) T).
  { split; [unfold qnorm2, quat; cbn; ring|]. intros v i Hi. destruct v. destruct i as [|[|[|i]]]; [| | |lia]; unfold qrot, SpecQuaternion.cross, qvec, quat, T, mv; cbn; ring. }
  assert (TR : trace T = -1) by (unfold trace, T; cbn; ring).
  exists T, quat. split; [exact RT|]. split; [exact Q|]. split; [exact TR|].
  rewrite (C74_half_turn_refuted quat T _ _ RT Q TR). split; unfold T, mv, SpecRigid.skew, vopp; cbn; f_equal; ring.
Qed.

Lemma AdjW_D (H : R -> pose) x m v : is_derive_m3 (fun t => rot (H t)) x m -> is_derive_v3 (fun t => pos (H t)) x v -> exists D, is_derive_m6 (fun t => AdjW (H t)) x D.
Proof.
  intros M V. eexists (M6 m m30 _ m). split; [exact M|]. split; [exact (m3_D_const m30 x)|]. split; [|exact M].
  exact (m3_D_mul _ _ _ _ _ (m3_D_skew _ _ _ V) M).
Qed.
Lemma vsum_D {B} (g : B -> R -> v6) (d : B -> v6) x l : (forall c, In c l -> is_derive_v6 (g c) x (d c)) -> is_derive_v6 (fun t => vsum (map (fun c => g c t) l)) x (vsum (map d l)).
Proof.
  induction l as [|c l IH]; intros H; [exact (v6_D_const v60 x)|]. cbn [map vsum fold_right]. apply v6_D_add; [apply H; left; reflexivity|]. apply IH. intros b I. apply H. right. exact I.
Qed.

Section Joints.
Variable r : robot.
Variable place : vec -> nat -> pose.
Variable dofs : nat.
Variable up : nat -> option (nat * nat).
Variable depth : nat -> nat.
Variable order : list nat.
Variable base : nat.
Variable child : nat -> nat.
Variable inertia : nat -> m6.
Variable pl : places.
Variable left right : foot.
Variable gravity : v3.
Variable torques : vec -> (nat -> v6) -> vec.
Variable derivative : vec -> (nat -> v6) -> mat.
Variable fjac : vec -> nat -> nat -> v6.
Variable quat : m3 -> vec.
Variable quaternion_block : vec -> mat.
Variable quaternion_of_foot : foot -> vec -> mat.
Notation aq := (at_base_quaternion pl).
Notation aj := (at_joint_positions pl).
Notation joints x := (part x aj dofs).
Notation rel := (relative r place).
Notation contact := (contact_wrenches r place base dofs pl left right).
Notation from_world := (from_world r place base dofs pl).
Notation raw := (raw r place dofs base pl).
Notation Jacobian := (torques_jacobian r place base dofs pl left right derivative fjac (foot_joints r place base dofs pl fjac quat) quaternion_block quaternion_of_foot).
Hypothesis still : still_robot r place dofs up depth order base child.
Hypothesis feet : feet_ok r dofs pl left right.
Hypothesis oracle : computes r place dofs up base child inertia pl gravity torques fjac.
(** getStaticForcesJointsDerivative (C73) is called with the wrenches that keep the robot still. *)
Definition calls_C73 : Prop := forall x W forces D,
  (forall s, static_balance r place base up inertia (rest_acceleration pl gravity x) W s (forces s)) ->
  static_derivative r dofs up order base child inertia (rel (joints x)) (fun l => m6v (Adj (rel (joints x) l base)) (rest_acceleration pl gravity x)) (forces (joints x)) = Some D ->
  forall j z, (j < dofs)%nat -> (z < dofs)%nat -> derivative x W j z = D j z.
Hypothesis c73 : calls_C73.

Lemma joints_vset x z t : (z < dofs)%nat -> joints (vset x (aj + z) t) = vset (joints x) z t.
Proof.
  intros Hz. extensionality i. unfold part, vset. destruct (Nat.ltb_spec i dofs) as [L|L]; destruct (Nat.eqb_spec i z) as [E|E]; subst; try lia.
  - rewrite Nat.eqb_refl. reflexivity.
  - destruct (Nat.eqb_spec (aj + i) (aj + z)); [lia|reflexivity].
  - reflexivity.
Qed.
Lemma joint_entry z : (z < dofs)%nat -> in_range aj dofs (aj + z) = true /\ in_range aq 4 (aj + z) = false /\
  forall c, In c (foot_points left ++ foot_points right) -> in_range (fst c) 3 (aj + z) = false.
Proof.
  intros Hz. destruct feet as (_ & _ & _ & _ & _ & AP & QJ).
  assert (T : in_range aj dofs (aj + z) = true) by (apply andb_true_iff; split; [apply Nat.leb_le|apply Nat.ltb_lt]; lia).
  split; [exact T|]. split.
  - destruct (in_range aq 4 (aj + z)) eqn:E; [|reflexivity]. rewrite (QJ _ E) in T. discriminate.
  - intros c I. destruct (in_range (fst c) 3 (aj + z)) eqn:E; [|reflexivity]. destruct (AP c _ I E) as [_ F]. rewrite F in T. discriminate.
Qed.
Lemma part_at x z : (z < dofs)%nat -> joints x z = x (aj + z)%nat.
Proof. intros Hz. unfold part. apply Nat.ltb_lt in Hz. rewrite Hz. reflexivity. Qed.
Lemma from_world_D x z f : (z < dofs)%nat -> is_frame r f ->
  is_derive_m3 (fun t => from_world (vset x (aj + z) t) f) (x (aj + z)%nat) (mm (mtr (skew (ang (fjac (joints x) f z)))) (from_world x f)).
Proof.
  intros Hz F. destruct (joint_entry z Hz) as (_ & Q & _). destruct (proj2 oracle (joints x) f z F Hz) as [M _]. rewrite (part_at x z Hz) in M.
  pose proof (m3_D_tr _ _ _ (m3_D_mul _ _ _ _ _ (m3_D_const (rot (base_pose (part x aq 4) v30)) (x (aj + z)%nat)) M)) as D. cbv beta in D.
  replace (vset (joints x) z (x (aj + z)%nat)) with (joints x) in D by (rewrite <- (part_at x z Hz), vset_same; reflexivity).
  replace (mtr _) with (mm (mtr (skew (ang (fjac (joints x) f z)))) (from_world x f)) in D.
  - eapply m3_D_ext; [|exact D]. intros t. cbv beta. unfold TorqueModel.from_world. rewrite (part_vset x _ t aq 4 Q), (joints_vset x z t Hz). reflexivity.
  - unfold TorqueModel.from_world. cbn [pmul rot]. rewrite mm_0_l. 
    set (B := rot (base_pose _ _)). set (A := rot (rel (joints x) base f)). set (S := skew _).
    rewrite <- mtr_mm, mm_assoc. f_equal. generalize (mm B (mm A S)). intros []. unfold madd, m30. cbn. f_equal; ring.
Qed.
(** How the wrench of a foot moves. *)
Definition spin (x : vec) (f : foot) (z : nat) : v6 :=
  vsum (map (fun c => let v := mv (skew (mv (from_world x (foot_frame f)) (part3 x (fst c)))) (ang (fjac (joints x) (foot_frame f) z)) in V6 v (mv (skew (snd c)) v)) (foot_points f)).
Lemma raw_D x f z : (z < dofs)%nat -> is_frame r (foot_frame f) -> (forall c, In c (foot_points f) -> in_range (fst c) 3 (aj + z) = false) ->
  is_derive_v6 (fun t => raw (vset x (aj + z) t) f (part3 (vset x (aj + z) t))) (x (aj + z)%nat) (spin x f z).
Proof.
  intros Hz F O. unfold PropTorque.raw, spin.
  apply (vsum_D (fun c t => at_point (from_world (vset x (aj + z) t) (foot_frame f)) (snd c) (part3 (vset x (aj + z) t) (fst c)))). intros c I. cbv zeta.
  set (w := ang _). set (F3 := part3 x (fst c)).
  assert (E : forall t, part3 (vset x (aj + z) t) (fst c) = F3).
  { intros t. rewrite part3_vset, (unit3_out _ _ (O c I)). unfold F3. destruct (part3 x (fst c)). unfold vadd, vscale, v30. cbn. f_equal; ring. }
  pose proof (v3_D_mv _ _ _ _ _ (from_world_D x z (foot_frame f) Hz F) (v3_D_const F3 (x (aj + z)%nat))) as D. cbv beta in D. fold w in D.
  assert (X : vadd (mv (mm (mtr (skew w)) (from_world x (foot_frame f))) F3) (mv (from_world (vset x (aj + z) (x (aj + z)%nat)) (foot_frame f)) v30) = mv (skew (mv (from_world x (foot_frame f)) F3)) w).
  { rewrite mv_0, vadd_0_r, mv_mm. generalize (mv (from_world x (foot_frame f)) F3). intros [a b d]. destruct w. unfold mv, mtr, skew. cbn. f_equal; ring. }
  rewrite X in D. pose proof (v3_D_mv _ _ _ _ _ (m3_D_const (skew (snd c)) (x (aj + z)%nat)) D) as D2. cbv beta in D2. rewrite mv_m30, vadd_0_l in D2.
  eapply (v6_D_ext (fun t => V6 (mv (from_world (vset x (aj + z) t) (foot_frame f)) F3) (mv (skew (snd c)) (mv (from_world (vset x (aj + z) t) (foot_frame f)) F3)))); [|split; [exact D|exact D2]].
  intros t. cbv beta. rewrite E, at_point_eq. reflexivity.
Qed.
Lemma carry_D s z c l : (z < dofs)%nat -> (c < r_links r)%nat -> (l < r_links r)%nat -> exists D, is_derive_m6 (fun t => AdjW (rel (vset s z t) c l)) (s z) D.
Proof.
  intros Hz Hc Hl. destruct still as (rok & plc & _ & _ & _ & Hb & _).
  destruct (proj2 oracle s c z (link_ok r c Hc) Hz) as [M1 V1]. destruct (proj2 oracle s l z (link_ok r l Hl) Hz) as [M2 V2].
  pose proof (m3_D_tr _ _ _ M1) as N1. pose proof (v3_D_opp _ _ _ (v3_D_mv _ _ _ _ _ N1 V1)) as P1.
  pose proof (m3_D_mul _ _ _ _ _ N1 M2) as M. pose proof (v3_D_add _ _ _ _ _ (v3_D_mv _ _ _ _ _ N1 V2) P1) as V. cbv beta in M, V.
  destruct (AdjW_D (fun t => pmul (pinv (rel (vset s z t) base c)) (rel (vset s z t) base l)) (s z) _ _ M V) as (D & HD).
  exists D. eapply m6_D_ext; [|exact HD]. intros t. cbv beta.
  rewrite (rel_inv r place rok plc) by (apply link_ok; auto). rewrite (rel_mul r place rok plc) by (apply link_ok; auto). reflexivity.
Qed.
Notation off f := (AdjW (frame_offset r (foot_frame f))).
Definition change (x : vec) (f : foot) (z : nat) (t : R) : v6 := v6add (raw (vset x (aj + z) t) f (part3 (vset x (aj + z) t))) (v6opp (raw x f (part3 x))).
(** The torque that balances the change of the wrench of a foot. *)
Lemma change_D x f z j jt : (z < dofs)%nat -> (j < dofs)%nat -> nth_error (r_joints r) j = Some jt -> is_frame r (foot_frame f) ->
  (forall c, In c (foot_points f) -> in_range (fst c) 3 (aj + z) = false) ->
  is_derive (fun t => v6dot (fjac (vset (joints x) z t) (foot_frame f) j) (change x f z t)) (x (aj + z)%nat) (v6dot (fjac (joints x) (foot_frame f) j) (spin x f z)).
Proof.
  intros Hz Hj EJ F O. pose proof still as ST. destruct ST as (rok & plc & trav & ord & one & Hb & kids & crossed). destruct (crossed j Hj) as (Hc & Nc & _).
  pose proof (fl_lt r rok _ F) as Hf. set (l := frame_link r (foot_frame f)) in *.
  assert (DC : is_derive_v6 (change x f z) (x (aj + z)%nat) (spin x f z)).
  { pose proof (v6_D_add _ _ _ _ _ (raw_D x f z Hz F O) (v6_D_const (v6opp (raw x f (part3 x))) (x (aj + z)%nat))) as D. cbv beta in D. rewrite v6add_0_r in D. exact D. }
  assert (C0 : change x f z (x (aj + z)%nat) = v60) by (unfold change; rewrite vset_same; apply v6add_opp).
  pose proof (foot_work r place dofs up depth order base child inertia pl gravity torques fjac still oracle) as FW.
  destruct (ab_dec r base up depth trav Hb l (child j) Hf) as [H|H].
  - rewrite <- (proj1 (FW (joints x) (foot_frame f) j jt F Hj EJ (spin x f z)) H). fold l.
    apply (is_derive_ext (fun t => v6dot (axis_of jt (child j)) (m6v (AdjW (rel (vset (joints x) z t) (child j) l)) (m6v (off f) (change x f z t))))).
    { intros t. exact (proj1 (FW (vset (joints x) z t) (foot_frame f) j jt F Hj EJ (change x f z t)) H). }
    apply v6dot_D. destruct (carry_D (joints x) z (child j) l Hz Hc Hf) as (D & HD). rewrite (part_at x z Hz) in HD.
    pose proof (v6_D_mv _ _ _ _ _ (m6_D_const (off f) (x (aj + z)%nat)) DC) as D1. cbv beta in D1. rewrite m6v_m0, v6add_0_l in D1.
    pose proof (v6_D_mv _ _ _ _ _ HD D1) as D2. cbv beta in D2. rewrite C0, !m6v_0, v6add_0_l in D2.
    replace (vset (joints x) z (x (aj + z)%nat)) with (joints x) in D2 by (rewrite <- (part_at x z Hz), vset_same; reflexivity). exact D2.
  - rewrite (proj2 (FW (joints x) (foot_frame f) j jt F Hj EJ (spin x f z)) H).
    apply (is_derive_ext (fun _ => 0)); [|auto_derive; [exact Logic.I|reflexivity]].
    intros t. symmetry. exact (proj2 (FW (vset (joints x) z t) (foot_frame f) j jt F Hj EJ (change x f z t)) H).
Qed.
Lemma foot_wrench_change x f z t : foot_wrench r place base dofs pl (vset x (aj + z) t) f = v6add (foot_wrench r place base dofs pl x f) (m6v (off f) (change x f z t)).
Proof.
  rewrite !foot_wrench_eq, <- m6v_add. f_equal. unfold change. rewrite (v6add_comm _ (v6opp _)), <- v6add_assoc, v6add_opp, v6add_0_l. reflexivity.
Qed.
Lemma joints_change x z t j jt forces : (z < dofs)%nat -> (j < dofs)%nat -> nth_error (r_joints r) j = Some jt ->
  (forall s, static_balance r place base up inertia (rest_acceleration pl gravity x) (contact x) s (forces s)) ->
  torques (vset x (aj + z) t) (contact (vset x (aj + z) t)) j =
  v6dot (axis_of jt (child j)) (forces (vset (joints x) z t) (child j))
  - v6dot (fjac (vset (joints x) z t) (foot_frame left) j) (change x left z t) - v6dot (fjac (vset (joints x) z t) (foot_frame right) j) (change x right z t).
Proof.
  intros Hz Hj EJ B1. pose proof still as ST. destruct ST as (rok & plc & trav & ord & one & Hb & kids & crossed). destruct (crossed j Hj) as (Hc & Nc & _).
  destruct feet as (FL & FR & NE & _). pose proof (fl_lt r rok _ FL) as HL. pose proof (fl_lt r rok _ FR) as HR. destruct (joint_entry z Hz) as (_ & Q & _).
  set (A := rest_acceleration pl gravity x) in *. set (s := vset (joints x) z t). specialize (B1 s).
  set (dL := m6v (off left) (change x left z t)). set (dR := m6v (off right) (change x right z t)).
  set (W1 := contact x) in *. set (W2 := fun l => if (l =? frame_link r (foot_frame left))%nat then v6add (W1 l) dL else W1 l). set (W3 := contact (vset x (aj + z) t)).
  destruct (C73_balance_exists r place dofs up depth order base child inertia still A W2) as (f2 & B2). specialize (B2 s).
  destruct (C73_balance_exists r place dofs up depth order base child inertia still A W3) as (f3 & B3). specialize (B3 s).
  assert (E3 : torques (vset x (aj + z) t) W3 j = v6dot (axis_of jt (child j)) (f3 s (child j))).
  { apply (proj1 oracle (vset x (aj + z) t) W3 (f3 s)); auto. rewrite (joints_vset x z t Hz).
    replace (rest_acceleration pl gravity (vset x (aj + z) t)) with A; [exact B3|]. unfold A, rest_acceleration. rewrite (part_vset x _ t aq 4 Q). reflexivity. }
  assert (S12 : forall l, (l < r_links r)%nat -> W2 l = if (l =? frame_link r (foot_frame left))%nat then v6add (W1 l) dL else W1 l) by reflexivity.
  assert (S23 : forall l, (l < r_links r)%nat -> W3 l = if (l =? frame_link r (foot_frame right))%nat then v6add (W2 l) dR else W2 l).
  { intros l _. unfold W3, W2, W1, contact_wrenches. rewrite !foot_wrench_change. fold dL dR.
    destruct (Nat.eqb_spec l (frame_link r (foot_frame right))) as [E|E], (Nat.eqb_spec l (frame_link r (foot_frame left))) as [E'|E']; congruence. }
  destruct (load_effect r place up depth base inertia rok plc trav Hb A s W1 W2 _ dL _ _ HL S12 B1 B2 (child j) Hc Nc) as [X1 Y1].
  destruct (load_effect r place up depth base inertia rok plc trav Hb A s W2 W3 _ dR _ _ HR S23 B2 B3 (child j) Hc Nc) as [X2 Y2].
  pose proof (foot_work r place dofs up depth order base child inertia pl gravity torques fjac still oracle) as FW.
  destruct (FW s _ j jt FL Hj EJ (change x left z t)) as [L1 L2]. destruct (FW s _ j jt FR Hj EJ (change x right z t)) as [R1 R2].
  assert (T2 : v6dot (axis_of jt (child j)) (f2 s (child j)) = v6dot (axis_of jt (child j)) (forces s (child j)) - v6dot (fjac s (foot_frame left) j) (change x left z t)).
  { destruct (ab_dec r base up depth trav Hb _ (child j) HL) as [H|H].
    - rewrite (X1 H), TorqueProofs.v6dot_add_r, v6dot_opp_r. unfold dL. rewrite (L1 H). ring.
    - rewrite (Y1 H), (L2 H). ring. }
  assert (T3 : v6dot (axis_of jt (child j)) (f3 s (child j)) = v6dot (axis_of jt (child j)) (f2 s (child j)) - v6dot (fjac s (foot_frame right) j) (change x right z t)).
  { destruct (ab_dec r base up depth trav Hb _ (child j) HR) as [H|H].
    - rewrite (X2 H), TorqueProofs.v6dot_add_r, v6dot_opp_r. unfold dR. rewrite (R1 H). ring.
    - rewrite (Y2 H), (R2 H). ring. }
  fold s in E3 |- *. rewrite E3, T3, T2. ring.
Qed.
Lemma foot_joints_eq x f j z : is_frame r (foot_frame f) -> conjugate_quaternions quat (from_world x (foot_frame f)) ->
  foot_joints r place base dofs pl fjac quat f x j z = v6dot (fjac (joints x) (foot_frame f) j) (spin x f z).
Proof.
  intros F CQ. unfold foot_joints, spin. cbv zeta. f_equal. f_equal. apply map_ext. intros c.
  assert (RT : rotation (from_world x (foot_frame f))).
  { apply rotation_tr. exact (wf_rigid r place dofs up depth order base child pl still v30 x (foot_frame f) F). }
  rewrite (turned_force_eq quat _ _ _ RT CQ). reflexivity.
Qed.
(** The columns of the joints: the derivative of the torques with respect to each joint, whatever the buffer held. *)
Theorem C74_joint_columns s x j z : (j < dofs)%nat -> (z < dofs)%nat ->
  conjugate_quaternions quat (from_world x (foot_frame left)) -> conjugate_quaternions quat (from_world x (foot_frame right)) ->
  partial (fun y => torques y (contact y) j) x (aj + z) (Jacobian s x j (aj + z)%nat).
Proof.
  intros Hj Hz QL QR. destruct (joint_of r place dofs up depth order base child still j Hj) as (jt & EJ). pose proof feet as (FL & FR & _).
  destruct (joint_entry z Hz) as (T & Q & O).
  assert (OL : forall c, In c (foot_points left) -> in_range (fst c) 3 (aj + z) = false) by (intros c I; apply O, in_or_app; auto).
  assert (OR : forall c, In c (foot_points right) -> in_range (fst c) 3 (aj + z) = false) by (intros c I; apply O, in_or_app; auto).
  destruct (C73_balance_exists r place dofs up depth order base child inertia still (rest_acceleration pl gravity x) (contact x)) as (forces & B).
  destruct (C73_static_torque_derivative r place dofs up depth order base child inertia still _ _ forces B (joints x)) as (D & ED & HD).
  pose proof (c73 x (contact x) forces D B ED j z Hj Hz) as EC. specialize (HD j z jt Hj Hz EJ). rewrite (part_at x z Hz), <- EC in HD.
  unfold partial. apply (is_derive_ext _ _ _ _ (fun t => eq_sym (joints_change x z t j jt forces Hz Hj EJ B))).
  assert (E : Jacobian s x j (aj + z)%nat = derivative x (contact x) j z - v6dot (fjac (joints x) (foot_frame left) j) (spin x left z) - v6dot (fjac (joints x) (foot_frame right) j) (spin x right z)).
  { rewrite <- (foot_joints_eq x left j z FL QL), <- (foot_joints_eq x right j z FR QR).
    assert (R0 : in_range 0 dofs j = true) by (apply andb_true_iff; split; [apply Nat.leb_le|apply Nat.ltb_lt]; lia).
    assert (S : forall f J, (forall c, In c (foot_points f) -> in_range (fst c) 3 (aj + z) = false) ->
      foot_jacobians r place base dofs pl fjac (foot_joints r place base dofs pl fjac quat) quaternion_of_foot x f J j (aj + z)%nat = J j (aj + z)%nat - foot_joints r place base dofs pl fjac quat f x j z).
    { intros f J OF. unfold foot_jacobians. unfold set_block at 1. rewrite R0, T. cbn [andb]. rewrite Nat.sub_0_r. replace (aj + z - aj)%nat with z by lia. f_equal.
      unfold set_block at 1. rewrite Q, andb_false_r. exact (proj1 (force_loop r place dofs base pl fjac x f j (aj + z)%nat Hj (foot_points f) J) OF). }
    unfold torques_jacobian. rewrite (S right _ OR), (S left _ OL). unfold set_block. rewrite R0, Q, T. cbn [andb]. rewrite Nat.sub_0_r. replace (aj + z - aj)%nat with z by lia. reflexivity. }
  rewrite E. unfold Rminus.
  exact (D_plus _ _ _ _ _ (D_plus _ _ _ _ _ HD (is_derive_opp _ _ _ (change_D x left z j jt Hz Hj EJ FL OL))) (is_derive_opp _ _ _ (change_D x right z j jt Hz Hj EJ FR OR))).
Qed.
End Joints.

(** * An example: the arm of PropTorque.v *)
Lemma arm_calls gravity : exists derivative, calls_C73 arm place 2 (up 0) [0%nat; 1%nat; 2%nat] 0 arm_child arm_inertia arm_places gravity derivative.
Proof.
  destruct (rest_still arm place 2 (up 0) (depth 0) [0%nat; 1%nat; 2%nat] 0 arm_child arm_inertia arm_still) as (n & B).
  exists (fun x W j z => match static_derivative arm 2 (up 0) [0%nat; 1%nat; 2%nat] 0 arm_child arm_inertia (relative arm place (part x 4 2))
    (fun l => m6v (Adj (relative arm place (part x 4 2) l 0)) (rest_acceleration arm_places gravity x))
    (rest arm place (up 0) 0 arm_inertia (rest_acceleration arm_places gravity x) W (part x 4 2) n) with Some D => D j z | None => 0 end).
  intros x W forces D Bf ED j z Hj Hz. cbn [at_joint_positions arm_places] in *. set (A := rest_acceleration arm_places gravity x) in *. set (s := part x 4 2) in *.
  destruct (C73_static_torque_derivative arm place 2 (up 0) (depth 0) [0%nat; 1%nat; 2%nat] 0 arm_child arm_inertia arm_still A W (fun s => rest arm place (up 0) 0 arm_inertia A W s n) (fun s => B A W s) s) as (D1 & E1 & H1).
  destruct (C73_static_torque_derivative arm place 2 (up 0) (depth 0) [0%nat; 1%nat; 2%nat] 0 arm_child arm_inertia arm_still A W forces Bf s) as (D2 & E2 & H2).
  rewrite E1. rewrite ED in E2. injection E2 as <-.
  destruct (joint_of arm place 2 (up 0) (depth 0) _ 0 arm_child arm_still j Hj) as (jt & EJ).
  refine (D_unique _ _ _ _ (H1 j z jt Hj Hz EJ) (is_derive_ext _ _ _ _ _ (H2 j z jt Hj Hz EJ))). intros t. cbv beta. f_equal.
  apply (C73_balance_unique arm place 2 (up 0) (depth 0) [0%nat; 1%nat; 2%nat] 0 arm_child arm_inertia arm_still _ W _ _ _ (Bf _) (B A W _)).
  unfold arm_child. cbn. lia.
Qed.
Lemma pose_by_rot A : rot A = m3I -> A = Pose m3I (pos A).
Proof. destruct A. cbn. intros ->. reflexivity. Qed.
Definition arm_left4 : foot := Foot 4 [(6%nat, V3 1 0 0)].
Example arm_feet4 : feet_ok arm 2 arm_places arm_left4 arm_right.
Proof.
  destruct arm_feet as (_ & B & _ & D). unfold feet_ok. split; [unfold is_frame; cbn; lia|]. split; [exact B|]. split; [cbn; discriminate|exact D].
Qed.
Lemma arm_conjugate x : x 0%nat = 1 -> x 1%nat = 0 -> x 2%nat = 0 -> x 3%nat = 0 -> x 4%nat = 0 ->
  conjugate_quaternions (fun _ => qident) (from_world arm place 0 2 arm_places x (foot_frame arm_left4)) /\
  conjugate_quaternions (fun _ => qident) (from_world arm place 0 2 arm_places x (foot_frame arm_right)).
Proof.
  intros Q0 Q1 Q2 Q3 J0.
  assert (HB : base_pose (part x 0 4) v30 = Pose m3I v30).
  { unfold base_pose. f_equal. assert (U : forall i, (i < 4)%nat -> qunit (part x 0 4) i = qident i).
    { intros i Hi. unfold qunit, part. replace (qnorm2 _) with 1 by (unfold qnorm2; cbn; rewrite Q0, Q1, Q2, Q3; ring). rewrite sqrt_1.
      destruct i as [|[|[|[|i]]]]; [| | | |lia]; cbn; rewrite ?Q0, ?Q1, ?Q2, ?Q3; field. }
    pose proof (U 0%nat ltac:(lia)) as U0. pose proof (U 1%nat ltac:(lia)) as U1. pose proof (U 2%nat ltac:(lia)) as U2. pose proof (U 3%nat ltac:(lia)) as U3.
    unfold qmat, qrot, SpecQuaternion.cross, qvec, delta, m3I. cbn. rewrite U0, U1, U2, U3. cbn. f_equal; ring. }
  assert (CQ : forall f, from_world arm place 0 2 arm_places x (foot_frame f) = m3I -> conjugate_quaternions (fun _ => qident) (from_world arm place 0 2 arm_places x (foot_frame f))).
  { intros f ->. split.
    - rewrite mtr_I. split; [unfold qnorm2; cbn; ring|]. intros v i Hi. rewrite mv_I. destruct v. destruct i as [|[|[|i]]]; [| | |lia]; unfold qrot, SpecQuaternion.cross, qvec; cbn; ring.
    - intros i Hi. destruct i as [|[|[|[|i]]]]; [| | | |lia]; cbn; ring. }
  assert (H0 : Rz (part x 4 2 0%nat) = m3I).
  { unfold part. cbn. rewrite J0. unfold Rz, m3I. rewrite cos_0, sin_0. f_equal; ring. }
  assert (FR4 : relative arm place (part x 4 2) 0 4 = Pose m3I (pos (relative arm place (part x 4 2) 0 4))).
  { apply pose_by_rot. unfold relative, frame_pose. change (frame_link arm 0) with 0%nat. change (frame_link arm 4) with 1%nat. change (frame_offset arm 0) with pid.
    change (frame_offset arm 4) with (Pose m3I (V3 0 0 2)).
    cbn [place j_pose hinge pmul pinv rot pos pid]. rewrite H0, !mm_I_r, mtr_I. reflexivity. }
  assert (FR2 : relative arm place (part x 4 2) 0 2 = Pose m3I (pos (relative arm place (part x 4 2) 0 2))).
  { apply pose_by_rot. unfold relative, frame_pose. change (frame_link arm 0) with 0%nat. change (frame_link arm 2) with 2%nat. change (frame_offset arm 0) with pid. change (frame_offset arm 2) with pid.
    cbn [place j_pose hinge slider pmul pinv rot pos pid]. rewrite H0, !mm_I_r, mtr_I. reflexivity. }
  split; apply CQ.
  - unfold from_world. cbn [at_base_quaternion arm_places]. rewrite HB. cbn [at_joint_positions arm_places foot_frame arm_left4]. rewrite FR4. unfold pmul. cbn [rot pos]. rewrite ?mm_I_l, ?mm_I_r, ?mtr_I. reflexivity.
  - unfold from_world. cbn [at_base_quaternion arm_places]. rewrite HB. cbn [at_joint_positions arm_places foot_frame arm_right]. rewrite FR2. unfold pmul. cbn [rot pos]. rewrite ?mm_I_l, ?mm_I_r, ?mtr_I. reflexivity.
Qed.
(** The base and the hinge are not turned; the slider is anywhere, as are the forces. *)
Example arm_joint_column gravity qb qof s x j z : (j < 2)%nat -> (z < 2)%nat -> x 0%nat = 1 -> x 1%nat = 0 -> x 2%nat = 0 -> x 3%nat = 0 -> x 4%nat = 0 ->
  exists torques derivative quat,
  computes arm place 2 (up 0) 0 arm_child arm_inertia arm_places gravity torques (fun s f i => jac s 0%nat f i) /\
  partial (fun y => torques y (contact_wrenches arm place 0 2 arm_places arm_left4 arm_right y) j) x (4 + z)
    (torques_jacobian arm place 0 2 arm_places arm_left4 arm_right derivative (fun s f i => jac s 0%nat f i)
       (foot_joints arm place 0 2 arm_places (fun s f i => jac s 0%nat f i) quat) qb qof s x j (4 + z)%nat).
Proof.
  intros Hj Hz Q0 Q1 Q2 Q3 J0. destruct (arm_computes arm_inertia gravity) as (torques & C). destruct (arm_calls gravity) as (derivative & H73).
  exists torques, derivative, (fun _ => qident). split; [exact C|]. destruct (arm_conjugate x Q0 Q1 Q2 Q3 J0) as [CL CR].
  exact (C74_joint_columns arm place 2 (up 0) (depth 0) _ 0 arm_child arm_inertia arm_places arm_left4 arm_right gravity torques derivative _ (fun _ => qident) qb qof arm_still arm_feet4 C H73 s x j z Hj Hz CL CR).
Qed.
Print Assumptions C74_joint_columns.
Print Assumptions C74_conjugate.
Print Assumptions C74_half_turn_refuted.
