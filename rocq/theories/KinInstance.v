(** A small robot that satisfies the hypotheses of the theorems on the kinematic expressions: three links, a revolute
    and a prismatic joint, two frames with an offset. *)
From Coq Require Import Reals List Arith Lia Lra Bool FunctionalExtensionality.
From Coquelicot Require Import Coquelicot.
From Verif Require Import Spec PartialLib SpecQuaternion.
From Verif Require Import QuatCurve SpecRigid SpecDerivatives Rigid RigidCalc KinTree KinModel KinLib KinMotion KinUsers KinProofs KinExist.
Import ListNotations.
Local Open Scope R_scope.

Definition Rz (x : R) : m3 := M3 (cos x) (- sin x) 0 (sin x) (cos x) 0 0 0 1.
Lemma Rz_rotation x : rotation (Rz x).
Proof.
  pose proof (sin2_cos2 x) as S. unfold Rsqr in S. unfold rotation, Rz, mm, mtr, m3I, mdet. cbn. split; [f_equal; lra|lra].
Qed.
Definition Rx90 : m3 := M3 1 0 0 0 0 (-1) 0 1 0.
Lemma Rx90_rotation : rotation Rx90.
Proof. unfold rotation, Rx90, mm, mtr, m3I, mdet. cbn. split; [f_equal; lra|lra]. Qed.

(** link 0 -> link 1: a revolute joint about z, placed at (1, 0, 0). *)
Definition hinge : joint := Joint 0 1 (fun x => Pose (Rz x) (V3 1 0 0)) (V6 (V3 0 1 0) (V3 0 0 (-1))) (V6 v30 (V3 0 0 1)).
(** link 1 -> link 2: a prismatic joint along x. *)
Definition slider : joint := Joint 1 2 (fun x => Pose m3I (V3 x 0 0)) (V6 (V3 (-1) 0 0) v30) (V6 (V3 1 0 0) v30).
(** frame 3 is on link 1, at (1, 0, 0) and turned by 90 degrees about x; frame 4 is on link 1, shifted along the axis of the hinge. *)
Definition arm : robot := Robot 3 [hinge; slider] [(1%nat, Pose Rx90 (V3 1 0 0)); (1%nat, Pose m3I (V3 0 0 2))].

Lemma joint_ok_intro j : (forall x, rigid (j_pose j x)) -> (forall x, moves (j_pose j) x (j_axis2 j)) ->
  (forall x, j_axis1 j = v6opp (m6v (Adj (j_pose j x)) (j_axis2 j))) -> joint_ok j.
Proof. intros A B C. split; [exact A|]. split; [exact B|]. intros x. rewrite (C x). apply moves_inv; auto. Qed.
Lemma hinge_ok : joint_ok hinge.
Proof.
  apply joint_ok_intro.
  - intros x. apply Rz_rotation.
  - intros x. unfold moves, is_derive_m3, is_derive_v3, hinge, Rz, mm, mv, skew, v30. cbn.
    split; [split; [split; [|split]|split; [split; [|split]|split; [|split]]]|split; [|split]]; (auto_derive; [exact Logic.I|ring]).
  - intros x. unfold hinge, Rz, Adj, m6v, v6opp, mm, mv, skew, vadd, vopp, m30, v30. cbn. f_equal; f_equal; ring.
Qed.
Lemma slider_ok : joint_ok slider.
Proof.
  apply joint_ok_intro.
  - intros x. apply rotation_I.
  - intros x. unfold moves, is_derive_m3, is_derive_v3, slider, m3I, mm, mv, skew, v30. cbn.
    split; [split; [split; [|split]|split; [split; [|split]|split; [|split]]]|split; [|split]]; (auto_derive; [exact Logic.I|ring]).
  - intros x. unfold slider, Adj, m6v, v6opp, m3I, mm, mv, skew, vadd, vopp, m30, v30. cbn. f_equal; f_equal; ring.
Qed.
Lemma arm_ok : robot_ok arm.
Proof.
  split.
  - intros i j E. destruct i as [|[|i]]; cbn in E.
    + injection E as <-. split; [apply hinge_ok|cbn; lia].
    + injection E as <-. split; [apply slider_ok|cbn; lia].
    + destruct i; discriminate E.
  - intros f Hf. cbn in Hf. destruct f as [|[|[|[|[|f]]]]]; [| | | | |lia]; (split; [cbn; lia|]).
    1-3: apply rotation_I. { apply Rx90_rotation. } apply rotation_I.
Qed.
Definition place (s : vec) (l : nat) : pose :=
  match l with
  | 1%nat => j_pose hinge (s 0%nat)
  | 2%nat => pmul (j_pose hinge (s 0%nat)) (j_pose slider (s 1%nat))
  | _ => pid
  end.
Lemma arm_placement : placement arm place.
Proof.
  split.
  - intros s l Hl. cbn in Hl. destruct l as [|[|[|l]]]; [apply rotation_I|apply Rz_rotation| |lia]. apply rigid_mul; [apply Rz_rotation|apply rotation_I].
  - intros s i j E. destruct i as [|[|i]]; cbn in E; [injection E as <-|injection E as <-|destruct i; discriminate E]; cbn [j_link1 j_link2 hinge slider place].
    + symmetry. apply pmul_id_l.
    + reflexivity.
Qed.
Definition up (b l : nat) : option (nat * nat) :=
  match b, l with
  | 0%nat, 1%nat => Some (0, 0)%nat | 0%nat, 2%nat => Some (1, 1)%nat
  | 1%nat, 0%nat => Some (1, 0)%nat | 1%nat, 2%nat => Some (1, 1)%nat
  | 2%nat, 1%nat => Some (2, 1)%nat | 2%nat, 0%nat => Some (1, 0)%nat
  | _, _ => None
  end.
Definition depth (b l : nat) : nat := (b - l + (l - b))%nat.
Lemma arm_traversal b : (b < r_links arm)%nat -> traversal arm b (up b) (depth b).
Proof.
  intros Hb l Hl N. cbn in Hb, Hl.
  assert (C0 : connects hinge 0 1) by (left; split; reflexivity). assert (C0' : connects hinge 1 0) by (right; split; reflexivity).
  assert (C1 : connects slider 1 2) by (left; split; reflexivity). assert (C1' : connects slider 2 1) by (right; split; reflexivity).
  destruct b as [|[|[|b]]]; [| | |lia]; (destruct l as [|[|[|l]]]; [| | |lia]); try congruence; cbn [up];
    do 3 eexists; (split; [reflexivity|]); (split; [reflexivity|]); (split; [eassumption|]); unfold depth; cbn; lia.
Qed.
Definition jac := jac_of arm place up.
Lemma arm_jac s f g i : frame_ok arm f -> frame_ok arm g -> (i < 2)%nat -> moves (fun x => relative arm place (vset s i x) f g) (s i) (jac s f g i).
Proof. intros F G _. exact (jac_of_ok arm place up depth arm_ok arm_placement arm_traversal s f g i F G). Qed.
(** The base is link 0 and moves with the velocity stored in variable 6. *)
Definition btw (rho : env) : v6 := V6 (V3 (rho 6%nat 0%nat) (rho 6%nat 1%nat) (rho 6%nat 2%nat)) (V3 (rho 6%nat 3%nat) (rho 6%nat 4%nat) (rho 6%nat 5%nat)).
Definition fvel_with (btw : env -> v6) (rho : env) (f : nat) : v6 := W arm place 2 jac 0 (rho v_s) (rho v_sdot) (btw rho) f.
Lemma arm_fvel b rho f : frame_ok arm f -> frame_velocity arm place 0 (rho v_s) (rho v_sdot) (b rho) f (fvel_with b rho f).
Proof.
  intros F. apply (W_velocity arm place 2 up depth 0 jac arm_ok arm_placement arm_traversal); auto; try apply arm_jac; cbn; lia.
Qed.
Lemma frames_ok f : (f < 5)%nat -> frame_ok arm f.
Proof. intros H. unfold frame_ok. cbn. lia. Qed.
