(** Independent vocabulary for C63, C65: the centre of mass of a robot and its velocity. *)
From Coq Require Import Reals List Arith.
From Coquelicot Require Import Coquelicot.
From Verif Require Import Spec SpecQuaternion SpecRigid SpecBase SpecFeet.
Local Open Scope R_scope.

(** The mass of every link and its centre of mass, seen in the link. *)
Record masses := Masses { m_of : nat -> R; m_com : nat -> v3 }.
Definition total_mass (r : robot) (b : masses) : R := sumn (r_links r) (m_of b).
(** The centre of mass, seen in the frame [base]: the mean of the centres of mass of the links, weighted by their masses. *)
Definition com_entry (r : robot) (place : vec -> nat -> pose) (b : masses) (base : nat) (s : vec) (n : nat) : R :=
  sumn (r_links r) (fun l => m_of b l * vent (papply (relative r place s base l) (m_com b l)) n) / total_mass r b.
Definition com_in_base (r : robot) (place : vec -> nat -> pose) (b : masses) (base : nat) (s : vec) : v3 :=
  V3 (com_entry r place b base s 0) (com_entry r place b base s 1) (com_entry r place b base s 2).
(** The centre of mass in the world, when the base is at [H]. *)
Definition com_world (r : robot) (place : vec -> nat -> pose) (b : masses) (base : nat) (H : pose) (s : vec) : v3 :=
  papply H (com_in_base r place b base s).

(** The base moves with linear velocity [v] and angular velocity [w], both seen in the world: R' = w^ R, p' = v. *)
Definition mixed_moves (H : R -> pose) (x : R) (v w : v3) : Prop :=
  is_derive_m3 (fun t => rot (H t)) x (mm (skew w) (rot (H x))) /\ is_derive_v3 (fun t => pos (H t)) x v.
(** The matrix J gives the velocity of the centre of mass from (v, w, velocities of the joints), whatever the motion. *)
Definition com_jacobian (r : robot) (place : vec -> nat -> pose) (b : masses) (base dofs : nat) (H0 : pose) (s : vec) (J : mat) : Prop :=
  forall (H : R -> pose) (sc : R -> vec) (x : R) (v w : v3) (sd : vec),
    mixed_moves H x v w -> H x = H0 -> sc x = s -> (forall k, is_derive (fun t => sc t k) x (sd k)) ->
    forall n, (n < 3)%nat -> is_derive (fun t => vent (com_world r place b base (H t) (sc t)) n) x
      (sumn 3 (fun a => J n a * vent v a) + sumn 3 (fun a => J n (3 + a)%nat * vent w a) + sumn dofs (fun k => J n (6 + k)%nat * sd k)).
(** What iDynTree gives for a state: the centre of mass in the world, and its Jacobian in the mixed representation. *)
Definition vec3_of (p : vec) : v3 := V3 (p 0%nat) (p 1%nat) (p 2%nat).
Definition com_oracle (r : robot) (place : vec -> nat -> pose) (b : masses) (base dofs : nat)
  (cpos : vec -> vec -> vec -> v3) (cjac : vec -> vec -> vec -> mat) : Prop :=
  forall q p s, cpos q p s = com_world r place b base (base_pose q (vec3_of p)) s /\
                com_jacobian r place b base dofs (base_pose q (vec3_of p)) s (cjac q p s).
(** C63: the centre of mass for the base and the joints of the state, minus the centre of mass of the state. *)
Definition com_error (r : robot) (place : vec -> nat -> pose) (b : masses) (base : nat) (op oq os ot n : nat) (x : vec) : vec :=
  fun i => vent (com_world r place b base (base_pose (part x oq 4) (part3 x op)) (part x os n)) i - x (ot + i)%nat.
(** iDynTree's QuaternionRightTrivializedDerivativeInverse: for a quaternion n that stays of norm one, E(n) n' is the angular
    velocity of its rotation, seen in the world. *)
Definition right_trivialized (E : vec -> mat) : Prop :=
  forall (n : R -> vec) (x : R) (e : vec), locally x (fun t => qnorm2 (n t) = 1) -> (forall k, (k < 4)%nat -> is_derive (fun t => n t k) x (e k)) ->
    let w a := sumn 4 (fun k => E (n x) a k * e k) in
    is_derive_m3 (fun t => qmat (n t)) x (mm (skew (V3 (w 0%nat) (w 1%nat) (w 2%nat))) (qmat (n x))).
