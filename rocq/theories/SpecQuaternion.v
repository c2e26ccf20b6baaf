(** Independent vocabulary for quaternions (C08-C10, C50): products, the rotation
    of a vector.  A quaternion is a vector of 4 entries (scalar part first), a
    3-vector a vector of 3 entries. *)
From Coq Require Import Reals List Arith Bool.
From Verif Require Import Spec.
Local Open Scope R_scope.

Definition qnorm2 (q : vec) : R := q 0%nat * q 0%nat + q 1%nat * q 1%nat + q 2%nat * q 2%nat + q 3%nat * q 3%nat.

Definition cross (a b : vec) : vec := fun i =>
  match i with
  | 0%nat => a 1%nat * b 2%nat - a 2%nat * b 1%nat
  | 1%nat => a 2%nat * b 0%nat - a 0%nat * b 2%nat
  | _ => a 0%nat * b 1%nat - a 1%nat * b 0%nat
  end.

(** Vector part of a quaternion. *)
Definition qvec (q : vec) : vec := fun i => q (S i).

(** Hamilton product. *)
Definition qmul (p q : vec) : vec := fun i =>
  match i with
  | 0%nat => p 0%nat * q 0%nat - p 1%nat * q 1%nat - p 2%nat * q 2%nat - p 3%nat * q 3%nat
  | 1%nat => p 0%nat * q 1%nat + p 1%nat * q 0%nat + p 2%nat * q 3%nat - p 3%nat * q 2%nat
  | 2%nat => p 0%nat * q 2%nat - p 1%nat * q 3%nat + p 2%nat * q 0%nat + p 3%nat * q 1%nat
  | _ => p 0%nat * q 3%nat + p 1%nat * q 2%nat - p 2%nat * q 1%nat + p 3%nat * q 0%nat
  end.
Definition qconj (q : vec) : vec := fun i => match i with O => q O | _ => - q i end.
(** The pure quaternion of a 3-vector. *)
Definition qpure (x : vec) : vec := fun i => match i with O => 0 | S j => x j end.

(** The rotation used by the planner for a quaternion (s, r):
    x + 2 s (r x X) + 2 r x (r x X). *)
Definition qrot (q x : vec) : vec := fun i =>
  x i + 2 * q 0%nat * cross (qvec q) x i + 2 * cross (qvec q) (cross (qvec q) x) i.

(** Kronecker delta. *)
Definition delta (i j : nat) : R := if Nat.eqb i j then 1 else 0.
Definition mulv (n : nat) (M : mat) (x : vec) : vec := fun i => sumn n (fun k => M i k * x k).

(** Jacobian of a function from [n] to [m] entries. *)
Definition is_jacobian_mn (m n : nat) (f : vec -> vec) (x : vec) (J : mat) : Prop :=
  forall i k, (i < m)%nat -> (k < n)%nat -> partial (fun y => f y i) x k (J i k).

(** The unit quaternion in the direction of [q]. *)
Definition qunit (q : vec) : vec := fun i => q i / sqrt (qnorm2 q).
Definition qident : vec := fun i => match i with O => 1 | _ => 0 end.
