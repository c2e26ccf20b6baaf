(** C68, C69: the derivatives with respect to the joints of the velocity of a frame and of the momentum of the robot
    (SharedKinDynComputations::getFrameVelJointsDerivative, getLinearAngularMomentumJointsDerivative). *)
From Coq Require Import Reals List Arith Lia Lra Bool FunctionalExtensionality.
From Coquelicot Require Import Coquelicot.
From Verif Require Import Spec PartialLib SpecQuaternion.
From Verif Require Import QuatCurve SpecRigid Rigid RigidCalc KinTree KinModel KinLib KinMotion KinUsers KinProofs KinExist KinInstance.
From Verif Require Import SpecBase BaseProofs SpecMom MomModel MomProofs.
Import ListNotations.
Local Open Scope R_scope.

(** The robot, its traversals, the child link of every joint of the traversal from the base, and the velocities of the
    frames, in every state.  There is one degree of freedom per joint, of the same index. *)
Definition mechanics (r : robot) (place : vec -> nat -> pose) (dofs : nat) (up : nat -> nat -> option (nat * nat)) (depth : nat -> nat -> nat)
  (base : nat) (child : nat -> nat) (fvel : rstate -> nat -> v6) : Prop :=
  robot_ok r /\ placement r place /\
  (forall b, (b < r_links r)%nat -> traversal r b (up b) (depth b)) /\
  (length (r_joints r) <= dofs)%nat /\ (base < r_links r)%nat /\
  (forall c p j, (c < r_links r)%nat -> c <> base -> up base c = Some (p, j) -> child j = c) /\
  (forall st f, is_frame r f -> frame_velocity r place base (st_s st) (st_sd st) (base_twist_of st) f (fvel st f)).

Section Mom.
Variable r : robot.
Variable place : vec -> nat -> pose.
Variable dofs : nat.
Variable up : nat -> nat -> option (nat * nat).
Variable depth : nat -> nat -> nat.
Variable base : nat.
Variable child : nat -> nat.
Variable inertia : nat -> m6.
Variable fvel : rstate -> nat -> v6.
Notation rel := (relative r place).
Notation Velocity_derivative := (vel_derivative r dofs (up base) base child rel fvel).
Notation Momentum_derivative := (mom_derivative r dofs (up base) base child inertia rel fvel).

(** C68: for every state and every frame the call succeeds and returns the derivative, with respect to the joints, of the
    velocity of the frame seen in the frame, the velocities of base and joints being kept. *)
Theorem C68_velocity_derivative : mechanics r place dofs up depth base child fvel ->
  forall st f, is_frame r f -> exists D, Velocity_derivative st f = Some (true, D) /\
    forall w, (forall s, frame_velocity r place base s (st_sd st) (base_twist_of st) f (w s)) -> joints_derivative dofs w (st_s st) D.
Proof.
  intros (rok & plc & trav & one & Hb & kids & fv) st f F.
  destruct (vel_derivative_ok r place dofs up depth base child fvel rok plc trav one Hb kids fv st f F) as (D & E & H). exists D. split; [exact E|].
  intros w Hw i j Hi Hj. apply is_derive_ext with (f := fun x => v6ent (fvel (with_s st (vset (st_s st) j x)) f) i); [|apply H; auto].
  intros x. f_equal. eapply (velocity_unique r place base); [exact rok|exact plc|exact Hb|exact F|apply (fv (with_s st (vset (st_s st) j x))); exact F|apply Hw].
Qed.
(** An index that is not one of a frame is refused, and the matrix is zero. *)
Theorem C68_no_frame st f : ~ is_frame r f -> Velocity_derivative st f = Some (false, fun _ _ => 0).
Proof. unfold is_frame, vel_derivative. intros N. replace (f <? r_links r + length (r_frames r))%nat with false by (symmetry; apply Nat.ltb_ge; lia). reflexivity. Qed.
(** The frames of the base link do not move with the joints: the derivative is zero. *)
Theorem C68_base_frames st f : is_frame r f -> frame_link r f = base -> Velocity_derivative st f = Some (true, fun _ _ => 0).
Proof.
  intros F E. unfold vel_derivative. replace (f <? r_links r + length (r_frames r))%nat with true by (symmetry; apply Nat.ltb_lt; exact F).
  rewrite E. cbn [walk]. rewrite Nat.eqb_refl. reflexivity.
Qed.

(** C69: for every state the call succeeds and returns the derivative, with respect to the joints, of the momentum of the
    robot seen in the base frame, the velocities of base and joints being kept. *)
Theorem C69_momentum_derivative : mechanics r place dofs up depth base child fvel ->
  forall st, exists D, Momentum_derivative st = Some D /\
    forall h, (forall s, momentum_in r place inertia base s (st_sd st) (base_twist_of st) (h s)) -> joints_derivative dofs h (st_s st) D.
Proof.
  intros (rok & plc & trav & one & Hb & kids & fv) st.
  destruct (mom_derivative_ok r place dofs up depth base child inertia fvel rok plc trav one Hb kids fv st) as (D & E & H). exists D. split; [exact E|].
  intros h Hh i j Hi Hj. eapply is_derive_ext; [|apply (H i j Hi Hj)]. intros x. cbv beta. f_equal. symmetry.
  exact (momentum_is r place base inertia fvel rok plc Hb fv (with_s st (vset (st_s st) j x)) (h (vset (st_s st) j x)) (Hh (vset (st_s st) j x))).
Qed.
(** The robot has a momentum in every state. *)
Theorem C69_momentum_exists : mechanics r place dofs up depth base child fvel ->
  forall st, momentum_in r place inertia base (st_s st) (st_sd st) (base_twist_of st)
    (v6total (r_links r) (fun l => m6v (AdjW (rel (st_s st) base l)) (m6v (inertia l) (fvel st l)))).
Proof.
  intros (rok & plc & trav & one & Hb & kids & fv) st. exists (fvel st). split; [|reflexivity]. intros l Hl. apply fv. unfold is_frame. lia.
Qed.
End Mom.

(** A joint on the way from the frame to the base whose index is not smaller than the number of degrees of freedom (a
    fixed joint of the model): jointsInfos is read out of its bounds. *)
Theorem C68_fixed_joint_undefined r place dofs up depth base child fvel : robot_ok r -> placement r place ->
  (forall b, (b < r_links r)%nat -> traversal r b (up b) (depth b)) -> (base < r_links r)%nat ->
  forall st f l c p j, is_frame r f -> path (up base) base (frame_link r f) l -> In (c, p, j) l -> (dofs <= j)%nat ->
  vel_derivative r dofs (up base) base child (relative r place) fvel st f = None.
Proof.
  intros rok plc trav Hb st f l c p j F P I Hj. pose proof (fl_lt r rok f F) as Hf. unfold vel_derivative.
  replace (f <? r_links r + length (r_frames r))%nat with true by (symmetry; apply Nat.ltb_lt; exact F).
  rewrite (walk_path _ _ _ _ _ P) by (generalize (up_short r up depth trav _ _ _ Hb Hf P); lia).
  match goal with |- match foldo ?g _ ?a0 with _ => _ end = None => enough (Q : forall y, foldo g l y = None) by (rewrite Q; reflexivity) end.
  clear P. induction l as [|[[c' p'] j'] l IH]; [contradiction|]. intros a. cbn [foldo snd]. destruct I as [I|I].
  - injection I as <- <- <-. replace (j' <? dofs)%nat with false by (symmetry; apply Nat.ltb_ge; exact Hj). reflexivity.
  - destruct (j' <? dofs)%nat; [apply IH; exact I|reflexivity].
Qed.
Theorem C69_fixed_joint_undefined r place dofs up depth base child inertia fvel : robot_ok r -> placement r place ->
  (forall b, (b < r_links r)%nat -> traversal r b (up b) (depth b)) -> (base < r_links r)%nat ->
  forall st t l c p j, (t < r_links r)%nat -> path (up base) base t l -> In (c, p, j) l -> (dofs <= j)%nat ->
  mom_derivative r dofs (up base) base child inertia (relative r place) fvel st = None.
Proof.
  intros rok plc trav Hb st t l c p j Ht P I Hj. unfold mom_derivative.
  assert (LW : forall D, link_walk r dofs (up base) base child inertia (relative r place) fvel st t D = None).
  { intros D. unfold link_walk. rewrite (walk_path _ _ _ _ _ P) by (generalize (up_short r up depth trav _ _ _ Hb Ht P); lia).
    clear P. revert D. induction l as [|[[c' p'] j'] l IH]; [contradiction|]. intros D. cbn [foldo snd]. destruct I as [I|I].
    - injection I as <- <- <-. replace (j' <? dofs)%nat with false by (symmetry; apply Nat.ltb_ge; exact Hj). reflexivity.
    - destruct (j' <? dofs)%nat; [apply IH; exact I|reflexivity]. }
  assert (N : forall ls, fold_left (fun a l => match a with Some D => link_walk r dofs (up base) base child inertia (relative r place) fvel st l D | None => None end) ls None = None).
  { induction ls; cbn; auto. }
  assert (Q : forall ls a, In t ls -> fold_left (fun a l => match a with Some D => link_walk r dofs (up base) base child inertia (relative r place) fvel st l D | None => None end) ls a = None).
  { induction ls as [|x ls IH]; intros a It; [contradiction|]. cbn [fold_left]. destruct It as [->|It]; [|apply IH; exact It].
    destruct a as [D|]; [rewrite LW|]; apply N. }
  apply Q. apply in_seq. lia.
Qed.

(** * An example: the arm of KinInstance.v *)
Definition arm_child (j : nat) : nat := S j.
Definition arm_vel (st : rstate) (f : nat) : v6 := W arm place 2 jac 0 (st_s st) (st_sd st) (base_twist_of st) f.
Example arm_mechanics : mechanics arm place 2 up depth 0 arm_child arm_vel.
Proof.
  split; [apply arm_ok|]. split; [apply arm_placement|]. split; [apply arm_traversal|]. split; [cbn; lia|]. split; [cbn; lia|]. split.
  - intros c p j Hc N U. cbn in Hc. destruct c as [|[|[|c]]]; [congruence| | |lia]; cbn in U; injection U as <- <-; reflexivity.
  - intros st f F. apply (W_velocity arm place 2 up depth 0 jac arm_ok arm_placement arm_traversal); auto; try apply arm_jac; cbn; lia.
Qed.
(** The hinge turns with unit velocity, the base is still, only the last link has a mass (two, on the axis of its frame). *)
Definition arm_inertia (l : nat) : m6 := match l with 2%nat => M6 (M3 2 0 0 0 2 0 0 0 2) m30 m30 m3I | _ => m60 end.
Definition arm_turning : rstate := RState (fun _ => 0) (fun i => match i with O => 1 | _ => 0 end) (fun _ => 0) (fun _ => 0) (fun _ => 0) (fun i => match i with O => 1 | _ => 0 end).
Notation s0 := (fun _ : nat => 0).
Lemma rest_02 : relative arm place s0 0 2 = Pose m3I (V3 1 0 0).
Proof.
  assert (E : forall s, relative arm place s 0 2 = pmul (Pose (Rz (s 0%nat)) (V3 1 0 0)) (Pose m3I (V3 (s 1%nat) 0 0))).
  { intros s. unfold relative, frame_pose. change (frame_link arm 0) with 0%nat. change (frame_link arm 2) with 2%nat.
    change (frame_offset arm 0) with pid. change (frame_offset arm 2) with pid. rewrite !pmul_id_r. cbn [place]. rewrite pinv_id, pmul_id_l. reflexivity. }
  rewrite E. cbv beta. unfold pmul, Rz, m3I, mm, mv, vadd. cbn. rewrite cos_0, sin_0. f_equal; f_equal; ring.
Qed.
Lemma rest_21 : relative arm place s0 2 1 = pid.
Proof.
  assert (E : forall s, relative arm place s 2 1 = pmul (pinv (pmul (Pose (Rz (s 0%nat)) (V3 1 0 0)) (Pose m3I (V3 (s 1%nat) 0 0)))) (Pose (Rz (s 0%nat)) (V3 1 0 0))).
  { intros s. unfold relative, frame_pose. change (frame_link arm 1) with 1%nat. change (frame_link arm 2) with 2%nat.
    change (frame_offset arm 1) with pid. change (frame_offset arm 2) with pid. rewrite !pmul_id_r. reflexivity. }
  rewrite E. cbv beta. assert (RG : rigid (Pose (Rz 0) (V3 1 0 0))) by apply Rz_rotation. rewrite pinv_mul by exact RG.
  rewrite pmul_assoc, pinv_l, pmul_id_r by exact RG. unfold pinv, pid, m3I, mv, mtr, vopp, v30. cbn. f_equal; f_equal; ring.
Qed.
Lemma rest_22 : relative arm place s0 2 2 = pid.
Proof. apply (rel_same arm place arm_ok arm_placement). apply frames_ok. lia. Qed.
Lemma rest_velocity : arm_vel arm_turning 2 = V6 v30 (V3 0 0 1).
Proof.
  unfold arm_vel, W. cbn [v6sum arm_turning st_s st_sd].
  assert (B : base_twist_of arm_turning = v60).
  { unfold base_twist_of, v60, v30. cbn [arm_turning st_lin st_qd st_q]. rewrite Ginv3_eq. f_equal. f_equal; ring. }
  rewrite B. assert (J : jac s0 0 2 0 = m6v (Adj (relative arm place s0 2 1)) (V6 v30 (V3 0 0 1))) by reflexivity.
  rewrite J, rest_21, Adj_id, m6v_I. generalize (jac s0 0 2 1) (Adj (relative arm place s0 2 0)). intros [[] []] [[] [] [] []].
  cbv -[Rplus Rmult Ropp Rminus IZR]. f_equal; f_equal; ring.
Qed.
Lemma rest_product : axis_times_velocity arm arm_child arm_vel arm_turning 1 = V6 (V3 0 1 0) v30.
Proof.
  unfold axis_times_velocity, info_axis. change (arm_child 1) with 2%nat. rewrite rest_velocity. change (motion_axis arm 1 2) with (V6 (V3 1 0 0) v30).
  cbv -[Rplus Rmult Ropp Rminus IZR]. f_equal; f_equal; ring.
Qed.
(** When the slider is moved, the momentum of the last link changes: it goes along y, two times the distance to the hinge. *)
Example arm_momentum_derivative : exists D, mom_derivative arm 2 (up 0) 0 arm_child arm_inertia (relative arm place) arm_vel arm_turning = Some D /\ D 1%nat 1%nat = 2.
Proof.
  eexists. split; [reflexivity|].
  transitivity (0 + v6ent (link_term arm 0 arm_child arm_inertia (relative arm place) arm_vel arm_turning 2 1) 1%nat); [reflexivity|].
  unfold link_term, info_axis. change (arm_child 1) with 2%nat. change (st_s arm_turning) with s0. rewrite rest_product, rest_velocity, rest_02, rest_22.
  change (motion_axis arm 1 2) with (V6 (V3 1 0 0) v30). cbv -[Rplus Rmult Ropp Rminus IZR]. ring.
Qed.
Example arm_velocity_derivative : exists D, vel_derivative arm 2 (up 0) 0 arm_child (relative arm place) arm_vel arm_turning 2 = Some (true, D) /\ D 1%nat 1%nat = 1.
Proof.
  eexists. split; [reflexivity|].
  transitivity (v6ent (m6v (Adj (relative arm place s0 2 2)) (axis_times_velocity arm arm_child arm_vel arm_turning 1)) 1%nat); [reflexivity|].
  rewrite rest_product, rest_22. cbv -[Rplus Rmult Ropp Rminus IZR]. ring.
Qed.
(** With one degree of freedom only, the slider being fixed, the call on the last link reads out of bounds. *)
Example arm_fixed : vel_derivative arm 1 (up 0) 0 arm_child (relative arm place) arm_vel arm_turning 2 = None.
Proof.
  apply (C68_fixed_joint_undefined arm place 1 up depth 0 arm_child arm_vel arm_ok arm_placement arm_traversal ltac:(cbn; lia)
    arm_turning 2 [(2, 1, 1); (1, 0, 0)]%nat 2 1 1); [unfold is_frame; cbn; lia| |left; reflexivity|lia].
  cbn. apply path_cons; [lia|reflexivity|]. apply path_cons; [lia|reflexivity|]. constructor.
Qed.

Print Assumptions C68_velocity_derivative.
Print Assumptions C69_momentum_derivative.
Print Assumptions C69_fixed_joint_undefined.
