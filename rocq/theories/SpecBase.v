(** Independent vocabulary for C60, C61: the pose of the base for a quaternion and a position. *)
From Coq Require Import Reals List Arith.
From Verif Require Import Spec SpecQuaternion SpecRigid.
Local Open Scope R_scope.

(** The matrix of the linear map x |-> qrot q x: its columns are the images of the unit vectors. *)
Definition qmat (q : vec) : m3 :=
  let c j := qrot q (fun i => delta i j) in
  M3 (c 0%nat 0%nat) (c 1%nat 0%nat) (c 2%nat 0%nat)
     (c 0%nat 1%nat) (c 1%nat 1%nat) (c 2%nat 1%nat)
     (c 0%nat 2%nat) (c 1%nat 2%nat) (c 2%nat 2%nat).
(** The pose of the base: the quaternion of the state is normalised first. *)
Definition base_pose (q : vec) (p : v3) : pose := Pose (qmat (qunit q)) p.
