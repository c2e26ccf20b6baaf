(** The documented meaning of the activation functions and of the contact
    constraints, written directly from the comments / publications behind the
    planner, with the standard library's [tanh]/[cosh].  Nothing here refers to the
    model of the code. *)
From Coq Require Import Reals List Arith.
From Verif Require Import Spec.
Local Open Scope R_scope.

(** A smooth activation: scaled function of the height, or a constant when disabled. *)
Definition smooth_step (K : R) (disabled : option R) (z : R) : R :=
  match disabled with Some v => v | None => tanh (K * z) end.
Definition smooth_bump (K : R) (disabled : option R) (z : R) : R :=
  match disabled with Some v => v | None => / cosh (K * z) end.

(** Normal force derivative bound: uz <= d(pz) M - (1 - d(pz)) k fz, as "value <= 0". *)
Definition force_control_value (delta : R -> R) (M k : R) (pz fz uz : nat) (x u : vec) : vec :=
  fun _ => u uz - delta (x pz) * M + (1 - delta (x pz)) * k * x fz.

(** Friction cone (squared): fx^2 + fy^2 - mu^2 fz^2 *)
Definition friction_value (mu : R) (fx fy fz : nat) (x : vec) : vec :=
  fun _ => (x fx)^2 + (x fy)^2 - mu^2 * (x fz)^2.

(** Normal velocity: (M - vz, vz + d(pz) M) >= 0 *)
Definition normal_velocity_value (delta : R -> R) (M : R) (pz vz : nat) (x u : vec) : vec :=
  fun i => match i with
           | O => M - u vz
           | _ => u vz + delta (x pz) * M
           end.

(** Planar velocity: (d Mx - vx, d My - vy, vx + d Mx, vy + d My) >= 0 *)
Definition planar_velocity_value (delta : R -> R) (Mx My : R) (pz vx vy : nat) (x u : vec) : vec :=
  fun i => match i with
           | 0%nat => delta (x pz) * Mx - u vx
           | 1%nat => delta (x pz) * My - u vy
           | 2%nat => u vx + delta (x pz) * Mx
           | _ => u vy + delta (x pz) * My
           end.

(** Relaxed complementarity: pz fz *)
Definition complementarity_value (pz fz : nat) (x : vec) : vec := fun _ => x pz * x fz.

(** Planar complementarity: (vx fz, vy fz) *)
Definition planar_complementarity_value (fz vx vy : nat) (x u : vec) : vec :=
  fun i => match i with 0%nat => u vx * x fz | _ => u vy * x fz end.

(** Dynamical complementarity: (d/dt + k)(pz fz), with dpz/dt = vz and dfz/dt = wz. *)
Definition dynamical_complementarity_value (k : R) (pz fz vz wz : nat) (x u : vec) : vec :=
  fun _ => u vz * x fz + x pz * u wz + k * (x pz * x fz).

(** Quaternion norm: |q|^2 - 1, the quaternion being the four entries from [o]. *)
Definition quaternion_norm_value (o : nat) (x : vec) : vec :=
  fun _ => (x o)^2 + (x (o + 1)%nat)^2 + (x (o + 2)%nat)^2 + (x (o + 3)%nat)^2 - 1.
