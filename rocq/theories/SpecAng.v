(** Independent vocabulary for C67: how far the angular velocity of a frame is from the one that turns it towards the
    desired orientation. *)
From Coq Require Import Reals List Arith.
From Coquelicot Require Import Coquelicot.
From Verif Require Import Spec SpecQuaternion SpecRigid SpecBase SpecCom SpecOri.
Local Open Scope R_scope.

(** The vector of the skew-symmetric part of a matrix. *)
Definition skew_part (A : m3) : v3 := V3 ((a21 A - a12 A) / 2) ((a02 A - a20 A) / 2) ((a10 A - a01 A) / 2).
(** The angular velocity plus k times the vector of the skew-symmetric part of R Rd^T. *)
Definition turning_error (k : R) (Rd Rf : m3) (w : v3) : v3 := vadd w (vscale k (skew_part (mm Rf (mtr Rd)))).
(** Half its squared norm. *)
Definition turning_cost (k : R) (Rd Rf : m3) (w : v3) : R :=
  let e := turning_error k Rd Rf w in (vx e * vx e + vy e * vy e + vz e * vz e) / 2.
(** Twice the imaginary part of d times the conjugate of n: the angular velocity, seen in the world, of the rotation of
    the unit quaternion n when it moves with d. *)
Definition world_spin (n d : vec) : v3 :=
  V3 (2 * (n 0%nat * d 1%nat - n 1%nat * d 0%nat + n 2%nat * d 3%nat - n 3%nat * d 2%nat))
     (2 * (n 0%nat * d 2%nat - n 2%nat * d 0%nat + n 3%nat * d 1%nat - n 1%nat * d 3%nat))
     (2 * (n 0%nat * d 3%nat - n 3%nat * d 0%nat + n 1%nat * d 2%nat - n 2%nat * d 1%nat)).
