(** Independent vocabulary for C70: the angular momentum of a robot about its centre of mass. *)
From Coq Require Import Reals List Arith.
From Coquelicot Require Import Coquelicot.
From Verif Require Import Spec SpecQuaternion SpecRigid SpecBase SpecFeet SpecCom SpecMom.
Local Open Scope R_scope.

(** Twice the vector part of the product of the conjugate of n and d: the angular velocity, seen in the body, of a body whose
    unit quaternion n has derivative d. *)
Definition body_spin (n d : vec) : v3 :=
  V3 (2 * (n 0%nat * d 1%nat - n 1%nat * d 0%nat - (n 2%nat * d 3%nat - n 3%nat * d 2%nat)))
     (2 * (n 0%nat * d 2%nat - n 2%nat * d 0%nat - (n 3%nat * d 1%nat - n 1%nat * d 3%nat)))
     (2 * (n 0%nat * d 3%nat - n 3%nat * d 0%nat - (n 1%nat * d 2%nat - n 2%nat * d 1%nat))).
(** [a] is the angular momentum about the centre of mass, with the orientation of the world, when the base is at [H] and
    moves with [b], the joints are at [s] and move with [sd]: the sum over the links of the angular part of their momenta,
    brought to the frame placed in the centre of mass and parallel to the world. *)
Definition centroidal_angular (r : robot) (place : vec -> nat -> pose) (inertia : nat -> m6) (mas : masses) (base : nat) (H : pose) (s sd : vec) (b : v6) (a : v3) : Prop :=
  exists w : nat -> v6, (forall l, (l < r_links r)%nat -> frame_velocity r place base s sd b l (w l)) /\
    a = ang (v6total (r_links r) (fun l =>
      m6v (AdjW (pmul (Pose m3I (vopp (com_world r place mas base H s))) (pmul H (relative r place s base l)))) (m6v (inertia l) (w l)))).
(** A 6 x (6 + n) matrix that gives the momentum in the base frame from the velocities of base and joints. *)
Definition momentum_matrix (r : robot) (place : vec -> nat -> pose) (inertia : nat -> m6) (base n : nat) (s : vec) (C : mat) : Prop :=
  forall sd b h, momentum_in r place inertia base s sd b h -> forall i, (i < 6)%nat ->
    v6ent h i = sumn 6 (fun k => C i k * v6ent b k) + sumn n (fun k => C i (6 + k)%nat * sd k).

(** Where the variables are: in the state the momentum, the position and quaternion of the base, the joints; in the control
    the linear velocity of the base, the derivative of its quaternion, the velocities of the joints. *)
Record layout := Layout { at_momentum : nat; at_position : nat; at_quaternion : nat; at_joints : nat;
                          at_linear : nat; at_quaternion_rate : nat; at_joint_rates : nat }.
Definition layout_apart (c : layout) (n : nat) : Prop :=
  apart (at_momentum c) 6 (at_position c) 3 /\ apart (at_momentum c) 6 (at_quaternion c) 4 /\ apart (at_momentum c) 6 (at_joints c) n /\
  apart (at_position c) 3 (at_quaternion c) 4 /\ apart (at_position c) 3 (at_joints c) n /\ apart (at_quaternion c) 4 (at_joints c) n /\
  apart (at_linear c) 3 (at_quaternion_rate c) 4 /\ apart (at_linear c) 3 (at_joint_rates c) n /\ apart (at_quaternion_rate c) 4 (at_joint_rates c) n.
(** [L x u] is the angular momentum about the centre of mass for the state x and the control u. *)
Definition centroidal_function (r : robot) (place : vec -> nat -> pose) (inertia : nat -> m6) (mas : masses) (base n : nat) (c : layout) (L : vec -> vec -> v3) : Prop :=
  forall x u, centroidal_angular r place inertia mas base (base_pose (part x (at_quaternion c) 4) (part3 x (at_position c)))
    (part x (at_joints c) n) (part u (at_joint_rates c) n)
    (V6 (part3 u (at_linear c)) (body_spin (qunit (part x (at_quaternion c) 4)) (part u (at_quaternion_rate c) 4))) (L x u).
