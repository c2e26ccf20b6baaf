(** Documented meaning of the planner's costs and of the feet height constraint,
    independent of the model. *)
From Coq Require Import Reals List Arith.
From Verif Require Import Spec.
Import ListNotations.
Local Open Scope R_scope.

(** A reference that may be unavailable at some times. *)
Definition reference (A : Type) := R -> option A.

(** Swing: 1/2 sum_i w_i (u_i (pz - h))^2 for the three velocity components. *)
Definition swing_value (w : vec) (h : R) (pz ux uy uz : nat) (x u : vec) : R :=
  / 2 * (w 0%nat * (u ux * (x pz - h))^2 + w 1%nat * (u uy * (x pz - h))^2 + w 2%nat * (u uz * (x pz - h))^2).

(** Complementarity cost: 1/2 (vz fz)^2 *)
Definition complementarity_cost_value (fz vz : nat) (x u : vec) : R := / 2 * (u vz * x fz)^2.

(** Phantom forces: 1/2 ((1 - d(pz)) fz)^2 *)
Definition phantom_value (delta : R -> R) (pz fz : nat) (x : vec) : R :=
  / 2 * ((1 - delta (x pz)) * x fz)^2.

(** Force mean (planar components): half the squared distance between the force of
    the point and the mean force of all the points of the foot. *)
Definition force_mean_value (own : nat) (all : list nat) (x : vec) : R :=
  / 2 * sumn 2 (fun c => (x (own + c)%nat - lmean (fun o => x (o + c)%nat) all)^2).

(** Force ratio: half the squared difference between the normal force of the point
    and the desired share of the total normal force. *)
Definition force_ratio_value (r : R) (own : nat) (all : list nat) (x : vec) : R :=
  / 2 * (x (own + 2)%nat - r * lsum (fun o => x (o + 2)%nat) all)^2.

(** Mean point position: weighted squared distance of the mean of the contact
    points from the reference. *)
Definition mean_point_value (pts : list nat) (ref w : vec) (x : vec) : R :=
  / 2 * sumn 3 (fun c => w c * (lmean (fun o => x (o + c)%nat) pts - ref c)^2).

(** Feet distance: half the squared distance between the means of the two feet. *)
Definition feet_distance_value (left right : list nat) (x : vec) : R :=
  / 2 * sumn 3 (fun c => (lmean (fun o => x (o + c)%nat) left - lmean (fun o => x (o + c)%nat) right)^2).

(** Foot yaw: the components of the two foot edges (bottom-right to top-right and
    top-right to top-left) that a foot oriented with yaw [psi] would not have. *)
Definition foot_yaw_value (psi : R) (br tr tl : nat) (x : vec) : R :=
  let ex := x tr - x br in let ey := x (tr + 1)%nat - x (br + 1)%nat in
  let lx := x tl - x tr in let ly := x (tl + 1)%nat - x (tr + 1)%nat in
  / 2 * (ey * cos psi - ex * sin psi)^2 + / 2 * (lx * cos psi + ly * sin psi)^2.

(** Postural velocity: 1/2 sum_i (w_i (v_i + k_i (q_i - ref_i)))^2 *)
Definition postural_value (n : nat) (w k ref : vec) (q v : nat) (x u : vec) : R :=
  / 2 * sumn n (fun i => (w i * (u (v + i)%nat + k i * (x (q + i)%nat - ref i)))^2).

(** Feet relative height: mean height of the left points minus that of the right ones. *)
Definition feet_height_value (left right : list nat) (x : vec) : vec :=
  fun _ => lmean (fun o => x (o + 2)%nat) left - lmean (fun o => x (o + 2)%nat) right.

(** Rigid planar motion of a point: rotation by [psi] then translation. *)
Definition planar_x (psi tx : R) (p : R * R) : R := tx + (fst p * cos psi - snd p * sin psi).
Definition planar_y (psi ty : R) (p : R * R) : R := ty + (fst p * sin psi + snd p * cos psi).

(** The mathematical function computed by [std::atan2]: the angle of [(x, y)] in (-PI, PI]. *)
Definition atan2 (y x : R) : R :=
  if Rlt_dec 0 x then atan (y / x)
  else if Rlt_dec x 0 then if Rle_dec 0 y then atan (y / x) + PI else atan (y / x) - PI
  else if Rlt_dec 0 y then PI / 2 else if Rlt_dec y 0 then - (PI / 2) else 0.
