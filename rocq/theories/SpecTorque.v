(** The load of the contact forces on the links, and the gravity (C74).  Nothing here mentions the model of the code. *)
From Coq Require Import Reals List Arith Bool.
From Coquelicot Require Import Coquelicot.
From Verif Require Import Spec SpecQuaternion SpecRigid SpecBase SpecFeet SpecMom SpecStatic.
Import ListNotations.
Local Open Scope R_scope.

(** A foot: a frame of the robot, and for every contact point where its force is in the state and its position in the frame. *)
Record foot := Foot { foot_frame : nat; foot_points : list (nat * v3) }.
(** Where the base quaternion (4) and the joint positions (dofs) are in the state. *)
Record places := Places { at_base_quaternion : nat; at_joint_positions : nat }.

Definition vsum (l : list v6) : v6 := fold_right v6add v60 l.
(** The pose of a frame in the world; the position of the base has no influence, so any is taken. *)
Definition world_frame (r : robot) (place : vec -> nat -> pose) (base dofs : nat) (pl : places) (p : v3) (x : vec) (f : nat) : pose :=
  pmul (base_pose (part x (at_base_quaternion pl) 4) p) (relative r place (part x (at_joint_positions pl) dofs) base f).
(** The force F applied at the point P of the world, as a wrench about the origin of the world. *)
Definition applied (P F : v3) : v6 := V6 F (mv (SpecRigid.skew P) F).
(** The wrench that the contact points of a foot apply on the robot, about the origin of the world. *)
Definition foot_load (r : robot) (place : vec -> nat -> pose) (base dofs : nat) (pl : places) (p : v3) (x : vec) (f : foot) : v6 :=
  let W := world_frame r place base dofs pl p x (foot_frame f) in
  vsum (map (fun c => applied (vadd (mv (rot W) (snd c)) (pos W)) (part3 x (fst c))) (foot_points f)).
(** The external wrench of link l, seen in the link: what the feet fixed to it receive. *)
Definition contact_load (r : robot) (place : vec -> nat -> pose) (base dofs : nat) (pl : places) (p : v3) (x : vec) (feet : list foot) (l : nat) : v6 :=
  m6v (AdjW (pinv (world_frame r place base dofs pl p x l)))
    (vsum (map (fun f => if (frame_link r (foot_frame f) =? l)%nat then foot_load r place base dofs pl p x f else v60) feet)).
(** Seen from the base, the links of a robot at rest accelerate upwards. *)
Definition rest_acceleration (pl : places) (gravity : v3) (x : vec) : v6 :=
  V6 (vopp (mv (mtr (qmat (qunit (part x (at_base_quaternion pl) 4)))) gravity)) v30.
(** The torques that hold the robot still at the state x. *)
Definition static_torques (r : robot) (place : vec -> nat -> pose) (base dofs : nat) (up : nat -> option (nat * nat)) (inertia : nat -> m6) (child : nat -> nat)
  (pl : places) (gravity : v3) (feet : list foot) (x : vec) (tau : vec) : Prop :=
  exists f, static_balance r place base up inertia (rest_acceleration pl gravity x) (contact_load r place base dofs pl v30 x feet) (part x (at_joint_positions pl) dofs) f /\
    forall j jt, (j < dofs)%nat -> nth_error (r_joints r) j = Some jt -> tau j = v6dot (axis_of jt (child j)) (f (child j)).
