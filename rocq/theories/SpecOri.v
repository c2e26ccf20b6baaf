(** Independent vocabulary for C66: how far the orientation of a frame is from the desired one. *)
From Coq Require Import Reals List Arith.
From Coquelicot Require Import Coquelicot.
From Verif Require Import Spec SpecQuaternion SpecDynamics SpecRigid SpecBase SpecFeet SpecCom.
Import ListNotations.
Local Open Scope R_scope.

(** The rotation of the frame f in the world. *)
Definition world_rotation (r : robot) (place : vec -> nat -> pose) (base f : nat) (q p s : vec) : m3 :=
  rot (pmul (base_pose q (vec3_of p)) (relative r place s base f)).
(** The quaternion of the rotation from the desired orientation to the actual one; [quat] gives the quaternion of a rotation. *)
Definition orientation_error (quat : m3 -> vec) (Rd Rf : m3) : vec := quat (mm (mtr Rd) Rf).
(** Half the weighted squared distance of this quaternion from that of the identity. *)
Definition orientation_distance (quat : m3 -> vec) (w : R) (Rd Rf : m3) : R :=
  w / 2 * sumn 4 (fun i => (orientation_error quat Rd Rf i - quat m3I i) * (orientation_error quat Rd Rf i - quat m3I i)).
(** The same for the base and the joints found in the state at the offsets op, oq, os. *)
Definition orientation_cost (r : robot) (place : vec -> nat -> pose) (base f : nat) (quat : m3 -> vec) (op oq os n : nat) (Rd : m3) (w : R) (x : vec) : R :=
  orientation_distance quat w Rd (world_rotation r place base f (part x oq 4) (part x op 3) (part x os n)).

(** The rows 3 to 5 of the matrix J give the angular velocity of the frame f, seen in the world, from the linear and
    angular velocity of the base, seen in the world, and the velocities of the joints, whatever the motion. *)
Definition frame_spin (r : robot) (place : vec -> nat -> pose) (base f dofs : nat) (H0 : pose) (s : vec) (J : mat) : Prop :=
  forall (H : R -> pose) (sc : R -> vec) (x : R) (v w : v3) (sd : vec),
    mixed_moves H x v w -> H x = H0 -> sc x = s -> (forall k, is_derive (fun t => sc t k) x (sd k)) ->
    let o a := sumn 3 (fun c => J (3 + a)%nat c * vent v c) + sumn 3 (fun c => J (3 + a)%nat (3 + c)%nat * vent w c) + sumn dofs (fun k => J (3 + a)%nat (6 + k)%nat * sd k) in
    is_derive_m3 (fun t => rot (pmul (H t) (relative r place (sc t) base f))) x
      (mm (skew (V3 (o 0%nat) (o 1%nat) (o 2%nat))) (rot (pmul (H x) (relative r place (sc x) base f)))).
(** iDynTree's QuaternionRightTrivializedDerivative: when the rotation of the unit quaternion n moves with the angular
    velocity w, seen in the world, n' = T(n) w. *)
Definition right_trivialized_back (T : vec -> mat) : Prop :=
  forall (n : R -> vec) (x : R) (e : vec) (w : v3), (forall t, qnorm2 (n t) = 1) -> (forall k, (k < 4)%nat -> is_derive (fun t => n t k) x (e k)) ->
    is_derive_m3 (fun t => qmat (n t)) x (mm (skew w) (qmat (n x))) ->
    forall k, (k < 4)%nat -> e k = sumn 3 (fun a => T (n x) k a * vent w a).

(** A set of states, open along every coordinate. *)
Definition coordinate_open (D : vec -> Prop) : Prop := forall x i, D x -> locally (x i) (fun t => D (vset x i t)).
(** The quaternion of the base is not zero on D, and the error is differentiable there along every coordinate. *)
Definition error_smooth (r : robot) (place : vec -> nat -> pose) (base f : nat) (quat : m3 -> vec) (op oq os n : nat) (Rd : m3) (D : vec -> Prop) : Prop :=
  forall x, D x -> 0 < qnorm2 (part x oq 4) /\
    forall i k, (k < 4)%nat -> ex_derive (fun t => let y := vset x i t in
      orientation_error quat Rd (world_rotation r place base f (part y oq 4) (part y op 3) (part y os n)) k) (x i).

(** A cost whose value is differentiable on an open set only. *)
Definition cost_exact_on {S} (D : S -> R -> vec -> Prop) (C : cost_class S) (ok : S -> Prop) (valid : S -> R -> Prop)
           (value : S -> R -> vec -> vec -> R) (sup : S -> supports) : Prop :=
  cost_value_correct C ok valid value /\
  (forall s, ok s -> forall t x u, valid s t -> D s t x ->
    (forall g, vzero_outside (q_sgrad (sup s)) g -> exists g', snd (k_sgrad C s t x u g) = Some g' /\
       vzero_outside (q_sgrad (sup s)) g' /\ is_gradient (fun y => value s t y u) x g') /\
    (forall g, vzero_outside (q_cgrad (sup s)) g -> exists g', snd (k_cgrad C s t x u g) = Some g' /\
       vzero_outside (q_cgrad (sup s)) g' /\ is_gradient (fun w => value s t x w) u g') /\
    (forall H, zero_outside (q_shess (sup s)) H -> exists H', snd (k_shess C s t x u H) = Some H' /\
       zero_outside (q_shess (sup s)) H' /\ is_hessian_on (D s t) (fun y => value s t y u) x H') /\
    (forall H, zero_outside (q_chess (sup s)) H -> exists H', snd (k_chess C s t x u H) = Some H' /\
       zero_outside (q_chess (sup s)) H' /\ is_hessian (fun w => value s t x w) u H') /\
    (forall H, zero_outside (q_mhess (sup s)) H -> exists H', snd (k_mhess C s t x u H) = Some H' /\
       zero_outside (q_mhess (sup s)) H' /\ is_mixed_hessian_on (D s t) (value s t) x u H')) /\
  cost_methods_keep_value C ok value.

(** A unit quaternion of every rotation, with a real part that is not negative. *)
Definition positive_quaternion (quat : m3 -> vec) : Prop := forall A, rotation A -> 0 <= quat A 0%nat.
(** The trace: 1 + 2 cos of the angle of the rotation. *)
Definition mtrace (A : m3) : R := a00 A + a11 A + a22 A.
(** The quaternion of the base is not zero, and the frame is not half a turn away from the desired orientation. *)
Definition below_half_turn (r : robot) (place : vec -> nat -> pose) (base f op oq os n : nat) (Rd : m3) (x : vec) : Prop :=
  0 < qnorm2 (part x oq 4) /\ -1 < mtrace (mm (mtr Rd) (world_rotation r place base f (part x oq 4) (part x op 3) (part x os n))).
