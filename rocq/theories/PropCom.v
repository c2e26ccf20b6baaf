(** C65: the centre of mass seen in the base, its Jacobian and its Hessian. *)
From Coq Require Import Reals List Arith Lia Lra Bool FunctionalExtensionality.
From Coquelicot Require Import Coquelicot.
From Verif Require Import Spec PartialLib SpecQuaternion SpecRigid SpecBase SpecCom SpecDerivatives Rigid RigidCalc KinTree KinModel KinLib KinMotion KinProofs PropKin BaseModel BaseProofs PropBase ComModel ComLib ComProofs ComHess ComCode.
Import ListNotations.
Local Open Scope R_scope.

Section Com.
Variable r : robot.
Variable place : vec -> nat -> pose.
Variable dofs : nat.
Variable up : nat -> nat -> option (nat * nat).
Variable depth : nat -> nat -> nat.
Variable base : nat.
Variable bt : formula.
Variable jac : vec -> nat -> nat -> nat -> v6.
Variable fvel : env -> nat -> v6.
Variable btw : env -> v6.
Variable quat : m3 -> vec.
Variable b : masses.
Variable cpos : vec -> vec -> vec -> v3.
Variable cjac : vec -> vec -> vec -> mat.
Notation UE := (ueval r dofs up base bt (relative r place) jac fvel quat).
Notation com := (com_entry r place b base).
(** The contract of iDynTree, and what is asked of the model: no joint above the base, every degree of freedom is a joint. *)
Hypothesis K : kinematics r place dofs up depth base jac fvel btw quat.
Hypothesis TR : tree r dofs up base.
Hypothesis CO : com_oracle r place b base dofs cpos cjac.

(** The position and the Jacobian, whatever the base. *)
Theorem C65_com_and_jacobian rho i : (i < 3)%nat ->
  com_value cpos rho i 0%nat = com (rho v_s) i /\
  forall k, (k < dofs)%nat -> partial (fun s => com s i) (rho v_s) k (com_jac_value cjac rho i k).
Proof.
  intros Hi. split; [apply (value_eq r place dofs base b cpos cjac CO rho i Hi)|]. intros k Hk. exact (jacobian_eq r place dofs base b cpos cjac CO rho i k Hi Hk).
Qed.
(** The construction of the Hessian of every degree of freedom ends, and whatever it builds is, in column [j], the
    derivative with respect to joint [j] of the derivative of the position with respect to joint [k]. *)
Theorem C65_com_hessian :
  (exists N, forall n k, (N <= n)%nat -> (k < dofs)%nat -> hess r b dofs up base UE n k <> None) /\
  forall n k h, hess r b dofs up base UE n k = Some h ->
    forall (D : vec -> nat -> R) i, (i < 3)%nat -> (forall s k, (k < dofs)%nat -> partial (fun s => com s i) s k (D s k)) ->
    forall rho j, (j < dofs)%nat -> partial (fun s => D s k) (rho v_s) j (h rho i j).
Proof.
  pose proof (ue_adj r place dofs up base bt jac fvel quat) as UA. split.
  - exists (S (deepest r depth base)). intros n k Hn Hk. destruct (proj2 TR k Hk) as (l & p & Hl & U).
    pose proof (child_spec r place dofs up depth base jac fvel btw quat K TR l p k Hl U) as C.
    destruct (hess_ends r place dofs up depth base jac fvel btw quat b K TR UE UA n k l C ltac:(lia)) as (h & ->). discriminate.
  - intros n k h E D i Hi HD rho j Hj.
    assert (Hk : (k < dofs)%nat).
    { destruct n as [|n]; cbn [hess] in E; [discriminate|]. unfold hess_direct in E. destruct (child_of r up base k) as [Kc|] eqn:C; [|discriminate].
      apply (child_dof r place dofs up depth base jac fvel btw quat K TR k Kc C). }
    rewrite (hess_value r place dofs up depth base jac fvel btw quat b K TR UE UA n k h E rho i j Hi Hj).
    eapply partial_ext; [|apply (DC_second r place dofs up depth base jac fvel btw quat b K TR); auto].
    intros s. symmetry. exact (DC_unique r place dofs up depth base jac fvel btw quat b K D i HD s k Hk).
Qed.
(** So the Hessian is the derivative of the Jacobian the code returns, and it is symmetric. *)
Corollary C65_hessian_of_the_jacobian n k h : hess r b dofs up base UE n k = Some h ->
  forall rho i j, (i < 3)%nat -> (j < dofs)%nat ->
  partial (fun s => com_jac_value cjac (fun v => if (v =? v_s)%nat then s else rho v) i k) (rho v_s) j (h rho i j) /\
  forall m h', hess r b dofs up base UE m j = Some h' -> h rho i j = h' rho i k.
Proof.
  intros E rho i j Hi Hj. split.
  - apply (proj2 C65_com_hessian n k h E (fun s k => com_jac_value cjac (fun v => if (v =? v_s)%nat then s else rho v) i k) i Hi); auto.
    intros s m Hm. exact (proj2 (C65_com_and_jacobian (fun v => if (v =? v_s)%nat then s else rho v) i Hi) m Hm).
  - intros m h' E'. pose proof (ue_adj r place dofs up base bt jac fvel quat) as UA.
    assert (Hk : (k < dofs)%nat).
    { destruct n as [|n]; cbn [hess] in E; [discriminate|]. unfold hess_direct in E. destruct (child_of r up base k) as [Kc|] eqn:C; [|discriminate].
      apply (child_dof r place dofs up depth base jac fvel btw quat K TR k Kc C). }
    rewrite (hess_value r place dofs up depth base jac fvel btw quat b K TR UE UA n k h E rho i j Hi Hj).
    rewrite (hess_value r place dofs up depth base jac fvel btw quat b K TR UE UA m j h' E' rho i k Hi Hk).
    apply (HV_sym r place dofs up depth base jac fvel btw quat b K TR).
Qed.
End Com.

(** ** Concrete cases *)
From Verif Require Import KinExist KinInstance.
(** The arm: the last link weighs 2, the others 1; every centre of mass is at (0, 1, 0). *)
Definition arm_masses : masses := Masses (fun l => if (l =? 2)%nat then 2 else 1) (fun _ => V3 0 1 0).
Example arm_tree : tree arm 2 up 0.
Proof. split; [reflexivity|]. intros [|[|j]] Hj; [exists 1%nat, 0%nat|exists 2%nat, 1%nat|lia]; split; cbn; (lia || reflexivity). Qed.
Example arm_com_oracle : exists cpos cjac, com_oracle arm place arm_masses 0 2 cpos cjac.
Proof. eexists _, _. exact (com_oracle_exists arm place 2 up depth 0 jac (fvel_with btw) btw quat_of arm_masses arm_kinematics). Qed.
(** The column of the hinge needs the column of the slider, whose constructor is called by the constructor of the hinge. *)
Example arm_hessian bt : exists h, hess arm arm_masses 2 up 0 (ueval arm 2 up 0 bt (relative arm place) jac (fvel_with btw) quat_of) 2 0 = Some h /\
  hess arm arm_masses 2 up 0 (ueval arm 2 up 0 bt (relative arm place) jac (fvel_with btw) quat_of) 1 0 = None.
Proof. eexists. split; reflexivity. Qed.
Lemma arm_links s : relative arm place s 0 0 = pid /\ relative arm place s 0 1 = Pose (Rz (s 0%nat)) (V3 1 0 0) /\
  relative arm place s 0 2 = pmul (Pose (Rz (s 0%nat)) (V3 1 0 0)) (Pose m3I (V3 (s 1%nat) 0 0)).
Proof.
  unfold relative, frame_pose. change (frame_link arm 0) with 0%nat. change (frame_link arm 1) with 1%nat. change (frame_link arm 2) with 2%nat.
  change (frame_offset arm 0) with pid. change (frame_offset arm 1) with pid. change (frame_offset arm 2) with pid. rewrite !pmul_id_r. cbn [place]. rewrite pinv_id, !pmul_id_l. auto.
Qed.
Lemma arm_com s : com_entry arm place arm_masses 0 s 0 = (3 - 3 * sin (s 0%nat) + 2 * s 1%nat * cos (s 0%nat)) / 4.
Proof.
  unfold com_entry, total_mass. change (r_links arm) with 3%nat. cbn [sumn]. destruct (arm_links s) as (E0 & E1 & E2). rewrite E0, E1, E2. unfold arm_masses, papply, pmul, pid, mv, mm, vadd, Rz, m3I. cbn. field.
Qed.
(** The mixed derivative with respect to the hinge and the slider is - sin(s0) / 2: it is not zero. *)
Example arm_mixed bt h rho : hess arm arm_masses 2 up 0 (ueval arm 2 up 0 bt (relative arm place) jac (fvel_with btw) quat_of) 2 0 = Some h ->
  h rho 0%nat 1%nat = - sin (rho v_s 0%nat) / 2.
Proof.
  intros E. pose proof (proj2 (C65_com_hessian arm place 2 up depth 0 bt jac (fvel_with btw) btw quat_of arm_masses arm_kinematics arm_tree) 2%nat 0%nat h E
      (fun s k => if (k =? 0)%nat then (- 3 * cos (s 0%nat) - 2 * s 1%nat * sin (s 0%nat)) / 4 else cos (s 0%nat) / 2) 0%nat ltac:(lia)) as Q.
  refine (D_unique _ _ _ _ (Q _ rho 1%nat ltac:(lia)) _).
  - intros s k Hk. unfold partial. eapply is_derive_ext; [intros t; symmetry; apply arm_com|]. destruct k as [|[|k]]; [| |lia]; cbn; auto_derive; auto; field.
  - cbn. unfold vset. cbn. auto_derive; auto. field.
Qed.

(** A model with a fixed joint: joint 0 turns link 2 with respect to link 1, joint 1 fixes link 1 to the base.  The columns are
    as many as the degrees of freedom but are indexed by joints: the constructor accesses a column that does not exist. *)
Definition glued : robot := Robot 3 [Joint 1 2 (j_pose hinge) (j_axis1 hinge) (j_axis2 hinge); Joint 0 1 (fun _ => pid) v60 v60] [].
Definition glued_place (s : vec) (l : nat) : pose := match l with 2%nat => j_pose hinge (s 0%nat) | _ => pid end.
Definition glued_up (c l : nat) : option (nat * nat) := match l with 1%nat => Some (0, 1)%nat | 2%nat => Some (1, 0)%nat | _ => None end.
Theorem C65_fixed_joint_refuted :
  exists r place dofs up base b k, robot_ok r /\ placement r place /\ traversal r base (up base) (fun l => l) /\ (k < dofs)%nat /\
    (exists l p, (l < r_links r)%nat /\ up base l = Some (p, k)) /\ 0 < total_mass r b /\
    forall ue n, hess r b dofs up base ue n k = None.
Proof.
  exists glued, glued_place, 1%nat, glued_up, 0%nat, arm_masses, 0%nat. split; [|split; [|split; [|split; [lia|split; [|split]]]]].
  - split.
    + intros i j E. destruct i as [|[|i]]; cbn in E.
      * injection E as <-. split; [exact hinge_ok|cbn; lia].
      * injection E as <-. split; [|cbn; lia]. split; [intros x; apply rotation_I|]. cbn [j_axis1 j_axis2 j_pose]. split; intros x; [apply moves_const|]. apply moves_ext with (f := fun _ => pid); [intros t; rewrite pinv_id; reflexivity|]. apply moves_const.
      * destruct i; discriminate E.
    + intros f Hf. cbn in Hf. destruct f as [|[|[|f]]]; [| | |lia]; (split; [cbn; lia|apply rotation_I]).
  - split.
    + intros s l Hl. cbn in Hl. destruct l as [|[|[|l]]]; [apply rotation_I|apply rotation_I|apply Rz_rotation|lia].
    + intros s i j E. destruct i as [|[|i]]; cbn in E; [injection E as <-|injection E as <-|destruct i; discriminate E]; cbn [j_link1 j_link2 j_pose glued_place]; rewrite pmul_id_l; reflexivity.
  - intros l Hl N. cbn in Hl. destruct l as [|[|[|l]]]; [congruence| | |lia]; cbn [glued_up]; do 3 eexists; (split; [reflexivity|]); (split; [reflexivity|]); (split; [left; split; reflexivity|]); cbn; lia.
  - exists 2%nat, 1%nat. split; [cbn; lia|reflexivity].
  - unfold total_mass. cbn. lra.
  - intros ue [|n]; reflexivity.
Qed.
Print Assumptions C65_com_and_jacobian.
Print Assumptions C65_com_hessian.
Print Assumptions C65_hessian_of_the_jacobian.
Print Assumptions C65_fixed_joint_refuted.
