(** C73: the derivative of the static torques with respect to the joints
    (SharedKinDynComputations::getStaticForcesJointsDerivative). *)
From Coq Require Import Reals List Arith Lia Lra Bool FunctionalExtensionality.
From Coquelicot Require Import Coquelicot.
From Verif Require Import Spec PartialLib SpecQuaternion.
From Verif Require Import QuatCurve SpecRigid Rigid RigidCalc KinTree KinModel KinLib KinMotion KinUsers KinProofs KinExist KinInstance.
From Verif Require Import SpecBase BaseProofs SpecMom MomModel MomProofs PropMom SpecStatic StaticModel StaticProofs StaticCalc.
Import ListNotations.
Local Open Scope R_scope.

(** The robot, its traversal from the base and the child link of every joint.  Every degree of freedom is the one of a
    joint that the traversal crosses. *)
Definition still_robot (r : robot) (place : vec -> nat -> pose) (dofs : nat) (up : nat -> option (nat * nat)) (depth : nat -> nat)
  (order : list nat) (base : nat) (child : nat -> nat) : Prop :=
  robot_ok r /\ placement r place /\ traversal r base up depth /\ ordered r base up order /\
  (length (r_joints r) <= dofs)%nat /\ (base < r_links r)%nat /\
  (forall c p j, (c < r_links r)%nat -> c <> base -> up c = Some (p, j) -> child j = c) /\
  (forall z, (z < dofs)%nat -> (child z < r_links r)%nat /\ child z <> base /\ exists p, up (child z) = Some (p, z)).

Section Static.
Variable r : robot.
Variable place : vec -> nat -> pose.
Variable dofs : nat.
Variable up : nat -> option (nat * nat).
Variable depth : nat -> nat.
Variable order : list nat.
Variable base : nat.
Variable child : nat -> nat.
Variable inertia : nat -> m6.
Notation rel := (relative r place).
(** The call at the joint positions s, with the accelerations and the wrenches that iDynTree computes. *)
Notation Derivative s A forces :=
  (static_derivative r dofs up order base child inertia (rel s) (fun l => m6v (Adj (rel s l base)) A) (forces s)).

Lemma torque_constant (a w : v6) : v6dot a (m6v (adw a) w) = 0.
Proof. destruct a as [[] []], w as [[] []]. unfold v6dot, vdot, m6v, adw, skew, mv, vadd, m30. cbn. ring. Qed.
Lemma v6dot_D a f x d : is_derive_v6 f x d -> is_derive (fun t => v6dot a (f t)) x (v6dot a d).
Proof.
  intros ((A & B & C) & (D & E & F)). unfold v6dot, vdot.
  assert (G : forall k g e, is_derive g x e -> is_derive (fun t => k * g t) x (k * e)).
  { intros k g e H. exact (is_derive_scal g x k e H). }
  exact (D_plus _ _ _ _ _ (D_plus _ _ _ _ _ (D_plus _ _ _ _ _ (G _ _ _ A) (G _ _ _ B)) (G _ _ _ C))
    (D_plus _ _ _ _ _ (D_plus _ _ _ _ _ (G _ _ _ D) (G _ _ _ E)) (G _ _ _ F))).
Qed.
Lemma v6dot_add a u v : v6dot a (v6add u v) = v6dot a u + v6dot a v.
Proof. destruct a as [[] []], u as [[] []], v as [[] []]. unfold v6dot, vdot, v6add, vadd. cbn. ring. Qed.
Lemma v6dot_opp a u : v6dot a (v6opp u) = - v6dot a u.
Proof. destruct a as [[] []], u as [[] []]. unfold v6dot, vdot, v6opp, vopp. cbn. ring. Qed.
Lemma v6dot_0 a : v6dot a v60 = 0.
Proof. destruct a as [[] []]. unfold v6dot, vdot, v60, v30. cbn. ring. Qed.

(** For every tree, every inertia, every acceleration of gravity and all external wrenches (kept in the links): if the
    wrenches between the links keep the robot still at all joint positions, the call returns at every position the
    derivative of the torque of every joint (the component along its axis of the wrench that its child link receives) with
    respect to every joint. *)
Theorem C73_static_torque_derivative : still_robot r place dofs up depth order base child ->
  forall A ext forces, (forall s, static_balance r place base up inertia A ext s (forces s)) ->
  forall s, exists D, Derivative s A forces = Some D /\
    forall j z jt, (j < dofs)%nat -> (z < dofs)%nat -> nth_error (r_joints r) j = Some jt ->
      is_derive (fun x => v6dot (axis_of jt (child j)) (forces (vset s z x) (child j))) (s z) (D j z).
Proof.
  intros (rok & plc & trav & ord & one & Hb & kids & crossed) A ext forces bal s.
  destruct (table_final r place dofs up depth base child inertia order trav one Hb kids crossed ord s (accel r place base A s) (forces s)) as (D & E & HI).
  unfold static_derivative. change (fun l => m6v (Adj (rel s l base)) A) with (accel r place base A s). rewrite E.
  exists (fun j z => v6dot (info_axis r child j) (D (child j) z)). split; [reflexivity|]. intros j z jt Hj Hz EJ.
  destruct (crossed j Hj) as (Hc & Nc & p & U).
  pose proof (force_D r place dofs up depth base child inertia order rok plc trav one Hb kids crossed ord A ext forces bal s D HI (child j) z Hc Nc Hz) as FD.
  eapply D_eq; [exact (v6dot_D (axis_of jt (child j)) _ _ _ FD)|]. rewrite <- (axis_is r child j jt EJ). unfold force_rate. rewrite v6dot_add.
  destruct (Nat.eqb_spec (child z) (child j)) as [Q|Q]; [|rewrite v6dot_0; ring].
  assert (z = j). { destruct (crossed z Hz) as (_ & _ & q & Uz). rewrite Q, U in Uz. congruence. } subst z.
  rewrite v6dot_opp. unfold child_force. rewrite torque_constant. ring.
Qed.
Fixpoint rest (A : v6) (ext : nat -> v6) (s : vec) (n l : nat) : v6 := match n with O => v60 | S k =>
  v6add (v6add (m6v (inertia l) (m6v (Adj (rel s l base)) A)) (v6opp (ext l)))
    (v6total (r_links r) (fun c => if hangs base up c l then m6v (AdjW (rel s l c)) (rest A ext s k c) else v60)) end.
Lemma rest_still : still_robot r place dofs up depth order base child ->
  exists n, forall A ext s, static_balance r place base up inertia A ext s (rest A ext s n).
Proof.
  intros (rok & plc & trav & ord & one & Hb & kids & crossed). destruct (depth_bound r depth) as (N & BN). exists (S N). intros A ext.
  assert (ST : forall s n l, (l < r_links r)%nat -> (N - depth l < n)%nat -> rest A ext s (S n) l = rest A ext s n l).
  { intros s. induction n as [|n IH]; intros l Hl Hn; [lia|]. 
    change (rest A ext s (S (S n)) l) with (v6add (v6add (m6v (inertia l) (m6v (Adj (rel s l base)) A)) (v6opp (ext l)))
      (v6total (r_links r) (fun c => if hangs base up c l then m6v (AdjW (rel s l c)) (rest A ext s (S n) c) else v60))).
    change (rest A ext s (S n) l) with (v6add (v6add (m6v (inertia l) (m6v (Adj (rel s l base)) A)) (v6opp (ext l)))
      (v6total (r_links r) (fun c => if hangs base up c l then m6v (AdjW (rel s l c)) (rest A ext s n c) else v60))).
    f_equal. rewrite !v6total_sum. apply v6sum_ext. intros c Hc. destruct (hangs base up c l) eqn:H; [|reflexivity]. f_equal. apply IH; [exact Hc|].
    destruct (hangs_up up base c l H) as (Nk & i & U). destruct (up_facts r base up depth trav Hb c Hc Nk) as (q & i' & U' & _ & Dq & _).
    rewrite U in U'. injection U' as <- <-. pose proof (BN c Hc). lia. }
  intros s l Hl. rewrite <- (ST s (S N) l Hl) at 1 by lia.
  change (rest A ext s (S (S N)) l) with (v6add (v6add (m6v (inertia l) (m6v (Adj (rel s l base)) A)) (v6opp (ext l)))
      (v6total (r_links r) (fun c => if hangs base up c l then m6v (AdjW (rel s l c)) (rest A ext s (S N) c) else v60))).
  set (S := v6total _ _). set (a := m6v (inertia l) _).
  rewrite (v6add_comm (v6add a (v6opp (ext l))) S), (v6add_assoc S), (v6add_assoc a), (v6add_comm (v6opp (ext l))), v6add_opp, v6add_0_r.
  rewrite (v6add_comm S a), v6add_assoc, v6add_opp, v6add_0_r. reflexivity.
Qed.
(** There are such wrenches, for every acceleration and all external wrenches. *)
Theorem C73_balance_exists : still_robot r place dofs up depth order base child ->
  forall A ext, exists forces, forall s, static_balance r place base up inertia A ext s (forces s).
Proof. intros H A ext. destruct (rest_still H) as (n & B). exists (fun s => rest A ext s n). intros s. apply B. Qed.
(** And they are the only ones. *)
Theorem C73_balance_unique : still_robot r place dofs up depth order base child ->
  forall A ext s f g, static_balance r place base up inertia A ext s f -> static_balance r place base up inertia A ext s g ->
  forall l, (l < r_links r)%nat -> f l = g l.
Proof.
  intros (rok & plc & trav & ord & one & Hb & kids & crossed) A ext s f g F G. destruct (depth_bound r depth) as (N & BN).
  intros l. remember (N - depth l)%nat as n eqn:En. revert l En. induction n as [n IH] using lt_wf_ind. intros l En Hl.
  pose proof (F l Hl) as Fl. pose proof (G l Hl) as Gl. apply v6_cancel in Fl. apply v6_cancel in Gl. rewrite Fl, Gl. f_equal. f_equal.
  rewrite !v6total_sum. apply v6sum_ext. intros c Hc. destruct (hangs base up c l) eqn:H; [|reflexivity]. f_equal.
  destruct (hangs_up up base c l H) as (Nk & i & U). destruct (up_facts r base up depth trav Hb c Hc Nk) as (q & i' & U' & _ & Dq & _).
  rewrite U in U'. injection U' as <- <-. pose proof (BN c Hc). apply (IH (N - depth c)%nat); [lia|reflexivity|exact Hc].
Qed.
End Static.

(** A link of the tree whose joint has an index that is not smaller than the number of degrees of freedom (a fixed joint of
    the model): jointsInfos is read out of its bounds, whatever the wrenches. *)
Theorem C73_fixed_joint_undefined r dofs up order base child inertia rel acc wrench l p j :
  In l (tl order) -> up l = Some (p, j) -> (dofs <= j)%nat ->
  static_derivative r dofs up order base child inertia rel acc wrench = None.
Proof.
  intros I U Hj. unfold static_derivative, static_table.
  assert (N : forall ls, fold_left (fun o l => match o with Some D => static_link r dofs up base child inertia rel acc wrench l D | None => None end) ls None = None).
  { induction ls; cbn; auto. }
  assert (Q : forall ls a, In l ls -> fold_left (fun o l => match o with Some D => static_link r dofs up base child inertia rel acc wrench l D | None => None end) ls a = None).
  { induction ls as [|x ls IH]; intros a J; [contradiction|]. cbn [fold_left]. destruct J as [->|J]; [|apply IH; exact J].
    destruct a as [D|]; [|apply N]. unfold static_link at 2. rewrite U. replace (j <? dofs)%nat with false by (symmetry; apply Nat.ltb_ge; exact Hj). apply N. }
  rewrite Q by (apply in_rev in I; exact I). reflexivity.
Qed.

(** * An example: the arm of KinInstance.v *)
Example arm_still : still_robot arm place 2 (up 0) (depth 0) [0%nat; 1%nat; 2%nat] 0 arm_child.
Proof.
  split; [apply arm_ok|]. split; [apply arm_placement|]. split; [apply arm_traversal; cbn; lia|]. split.
  { split; [|split; [|split]].
    - repeat constructor; cbn; lia.
    - intros l. cbn. lia.
    - reflexivity.
    - intros before c after E N. destruct before as [|b0 [|b1 [|b2 before]]]; cbn in E; injection E; intros; subst; try congruence.
      + exists 0%nat, 0%nat. split; [reflexivity|left; reflexivity].
      + exists 1%nat, 1%nat. split; [reflexivity|right; left; reflexivity].
      + destruct before; discriminate. }
  split; [cbn; lia|]. split; [cbn; lia|]. split.
  - intros c p j Hc N U. cbn in Hc. destruct c as [|[|[|c]]]; [congruence| | |lia]; cbn in U; injection U as <- <-; reflexivity.
  - intros z Hz. destruct z as [|[|z]]; [| |lia]; unfold arm_child; cbn; repeat split; try lia; eauto.
Qed.
Lemma arm_rel s f g : (f < 3)%nat -> (g < 3)%nat -> relative arm place s f g = pmul (pinv (place s f)) (place s g).
Proof.
  intros F G. unfold relative, frame_pose. replace (frame_link arm f) with f by (destruct f as [|[|[|f]]]; [reflexivity..|lia]).
  replace (frame_link arm g) with g by (destruct g as [|[|[|g]]]; [reflexivity..|lia]).
  replace (frame_offset arm f) with pid by (destruct f as [|[|[|f]]]; [reflexivity..|lia]).
  replace (frame_offset arm g) with pid by (destruct g as [|[|[|g]]]; [reflexivity..|lia]). rewrite !pmul_id_r. reflexivity.
Qed.
Lemma arm_12 s : relative arm place s 1 2 = Pose m3I (V3 (s 1%nat) 0 0).
Proof.
  rewrite arm_rel by lia. change (place s 2) with (pmul (j_pose hinge (s 0%nat)) (j_pose slider (s 1%nat))). change (place s 1) with (j_pose hinge (s 0%nat)).
  rewrite <- pmul_assoc, pinv_l by apply Rz_rotation. rewrite pmul_id_l. reflexivity.
Qed.
(** Gravity pulls along -y: the arm accelerates with 1 along y, seen from link 0. *)
Definition gravity_y : v6 := V6 (V3 0 1 0) v30.
Lemma arm_20 s : m6v (Adj (relative arm place s 2 0)) gravity_y = V6 (V3 (sin (s 0%nat)) (cos (s 0%nat)) 0) v30.
Proof.
  rewrite arm_rel by lia. change (place s 2) with (pmul (j_pose hinge (s 0%nat)) (j_pose slider (s 1%nat))). change (place s 0) with pid. rewrite pmul_id_r.
  unfold pmul, hinge, slider. cbn [j_pose rot pos]. unfold pinv. cbn [rot pos]. generalize (vopp (mv (mtr (mm (Rz (s 0%nat)) m3I)) (vadd (mv (Rz (s 0%nat)) (V3 (s 1%nat) 0 0)) (V3 1 0 0)))).
  intros [px py pz]. rewrite mm_I_r. unfold gravity_y, Adj. cbn [rot pos m6v]. 
  generalize (mm (skew (V3 px py pz)) (mtr (Rz (s 0%nat)))). intros []. unfold m6v, Rz, mv, mtr, vadd, m30, v30. cbn. f_equal; f_equal; ring.
Qed.
Lemma carried x c1 c2 c3 d1 d2 d3 : m6v (AdjW (Pose m3I (V3 x 0 0))) (V6 (V3 c1 c2 c3) (V3 d1 d2 d3)) = V6 (V3 c1 c2 c3) (V3 d1 (d2 - x * c3) (d3 + x * c2)).
Proof. unfold AdjW. cbn [rot pos]. rewrite mm_I_r. unfold m6v, m3I, m30, mv, skew, vadd. cbn. f_equal; f_equal; ring. Qed.
Lemma heavy x y z : m6v (M6 (M3 2 0 0 0 2 0 0 0 2) m30 m30 m3I) (V6 (V3 x y z) v30) = V6 (V3 (2 * x) (2 * y) (2 * z)) v30.
Proof. unfold m6v, m3I, m30, mv, vadd, v30. cbn. f_equal; f_equal; ring. Qed.
Lemma light v : m6v m60 v = v60.
Proof. destruct v as [[] []]. unfold m6v, m60, m30, mv, vadd, v60, v30. cbn. f_equal; f_equal; ring. Qed.
(** The mass of 2 of link 2 loads the hinge with 2 times its distance times the cosine of the angle. *)
Lemma arm_load forces s : static_balance arm place 0 (up 0) arm_inertia gravity_y (fun _ => v60) s (forces s) ->
  v6dot (axis_of hinge 1) (forces s 1%nat) = 2 * s 1%nat * cos (s 0%nat).
Proof.
  intros B. pose proof (B 2%nat ltac:(cbn; lia)) as B2. pose proof (B 1%nat ltac:(cbn; lia)) as B1. rewrite arm_20 in B2.
  change (arm_inertia 2) with (M6 (M3 2 0 0 0 2 0 0 0 2) m30 m30 m3I) in B2. change (arm_inertia 1) with m60 in B1.
  rewrite heavy in B2. rewrite light in B1. change (r_links arm) with 3%nat in B1, B2. cbn [v6total hangs negb Nat.eqb andb up] in B1, B2.
  rewrite arm_12 in B1. change (axis_of hinge 1) with (V6 v30 (V3 0 0 1)).
  destruct (forces s 1%nat) as [[a1 a2 a3] [b1 b2 b3]], (forces s 2%nat) as [[c1 c2 c3] [d1 d2 d3]]. rewrite carried in B1.
  unfold v6dot, vdot, v6add, v6opp, v60, vadd, vopp, v30 in *. cbn in B1, B2 |- *.
  injection B1 as P1 P2 P3 P4 P5 P6. injection B2 as Q1 Q2 Q3 Q4 Q5 Q6.
  assert (c2 = 2 * cos (s 0%nat)) by lra. assert (d3 = 0) by lra. subst c2 d3. lra.
Qed.
Example arm_static_torque : exists forces, (forall s, static_balance arm place 0 (up 0) arm_inertia gravity_y (fun _ => v60) s (forces s)) /\
  forall s, exists D, static_derivative arm 2 (up 0) [0%nat; 1%nat; 2%nat] 0 arm_child arm_inertia (relative arm place s)
      (fun l => m6v (Adj (relative arm place s l 0)) gravity_y) (forces s) = Some D /\
    D 0%nat 1%nat = 2 * cos (s 0%nat) /\ D 0%nat 0%nat = - (2 * s 1%nat * sin (s 0%nat)).
Proof.
  destruct (C73_balance_exists arm place 2 (up 0) (depth 0) [0%nat; 1%nat; 2%nat] 0 arm_child arm_inertia arm_still gravity_y (fun _ => v60)) as (forces & B).
  exists forces. split; [exact B|]. intros s.
  destruct (C73_static_torque_derivative arm place 2 (up 0) (depth 0) [0%nat; 1%nat; 2%nat] 0 arm_child arm_inertia arm_still gravity_y (fun _ => v60) forces B s) as (D & E & HD).
  exists D. split; [exact E|].
  pose proof (HD 0%nat 1%nat hinge ltac:(lia) ltac:(lia) eq_refl) as D1. pose proof (HD 0%nat 0%nat hinge ltac:(lia) ltac:(lia) eq_refl) as D0.
  change (arm_child 0) with 1%nat in D0, D1.
  split.
  - refine (D_unique _ _ _ _ (is_derive_ext _ _ _ _ (fun x => arm_load forces (vset s 1 x) (B _)) D1) _). cbn. auto_derive; [exact Logic.I|ring].
  - refine (D_unique _ _ _ _ (is_derive_ext _ _ _ _ (fun x => arm_load forces (vset s 0 x) (B _)) D0) _). cbn. auto_derive; [exact Logic.I|ring].
Qed.
Print Assumptions C73_static_torque_derivative.
Print Assumptions C73_balance_exists.
Print Assumptions C73_balance_unique.
Print Assumptions C73_fixed_joint_undefined.
