(** Model of src/private/QuaternionUtils.cpp.  Matrices are functions of the row
    and column index; entries outside the matrix are not meaningful. *)
From Coq Require Import Reals List Arith Bool.
From Verif Require Import Spec.
Local Open Scope R_scope.

(** iDynTree::skew. *)
Definition skew (v : vec) : mat := fun i j =>
  match i, j with
  | 0%nat, 1%nat => - v 2%nat | 0%nat, 2%nat => v 1%nat
  | 1%nat, 0%nat => v 2%nat | 1%nat, 2%nat => - v 0%nat
  | 2%nat, 0%nat => - v 1%nat | 2%nat, 1%nat => v 0%nat
  | _, _ => 0
  end.
Definition identity (i j : nat) : R := if Nat.eqb i j then 1 else 0.
Definition tail3 (q : vec) : vec := fun i => q (S i).

(** QuaternionUtils.cpp:11-21 (4 x 3). *)
Definition QuaternionLeftTrivializedDerivative (q : vec) : mat := fun i j =>
  (1 / 2) * match i with
            | O => - tail3 q j
            | S i' => identity i' j * q 0%nat%nat + skew (tail3 q) i' j
            end.

(** QuaternionUtils.cpp:23-36 (3 x 4%nat). *)
Definition QuaternionLeftTrivializedDerivativeInverse (q : vec) : mat := fun i j =>
  match j with
  | O => - tail3 q i
  | S j' => identity i j' * q 0%nat%nat - skew (tail3 q) i j'
  end * 2.

(** QuaternionUtils.cpp:50-53 and 45-48. *)
Definition QuaternionSquaredNorm (q : vec) : R :=
  q 0%nat%nat * q 0%nat%nat + q 1%nat%nat * q 1%nat%nat + q 2%nat%nat * q 2%nat%nat + q 3%nat%nat * q 3%nat%nat.
Definition QuaternionNorm (q : vec) : R := sqrt (QuaternionSquaredNorm q).

(** QuaternionUtils.cpp:38-43 (Eigen's normalized(): unchanged when the squared
    norm is not positive). *)
Definition NormalizedQuaternion (q : vec) : vec := fun i =>
  if Rlt_dec 0 (QuaternionSquaredNorm q) then q i / sqrt (QuaternionSquaredNorm q) else q i.

(** QuaternionUtils.cpp:55-67 (4 x 4%nat). *)
Definition NormalizedQuaternionDerivative (q : vec) : mat := fun i j =>
  let powerThreeNorm := QuaternionNorm q * QuaternionSquaredNorm q in
  (identity i j * QuaternionSquaredNorm q - q i * q j) * (1 / powerThreeNorm).

(** QuaternionUtils.cpp:69-83 (4 x 4%nat). *)
Definition TimesOmegaJacobian (omega : vec) : mat := fun i j =>
  match i, j with
  | O, O => 0
  | O, S j' => - omega j'
  | S i', O => omega i'
  | S i', S j' => - skew omega i' j'
  end * (1 / 2).

(** QuaternionUtils.cpp:85-111 (3 x 4%nat). *)
Definition cross3 (a b : vec) : vec := fun i =>
  match i with
  | 0%nat => a 1%nat * b 2%nat - a 2%nat * b 1%nat
  | 1%nat => a 2%nat * b 0%nat - a 0%nat * b 2%nat
  | _ => a 0%nat * b 1%nat - a 1%nat * b 0%nat
  end.
Definition norm3 (x : vec) : R := sqrt (x 0%nat * x 0%nat + x 1%nat * x 1%nat + x 2%nat * x 2%nat).
Definition mat3mul (A B : mat) : mat := fun i j => A i 0%nat * B 0%nat j + A i 1%nat * B 1%nat j + A i 2%nat * B 2%nat j.
Definition RotatedVectorQuaternionJacobian (x q : vec) : mat := fun i j =>
  let big := if Rlt_dec 1 (norm3 x) then true else false in
  let vectorNorm := if big then norm3 x else 1 in
  let xn : vec := fun k => if big then x k / norm3 x else x k in
  let rCrossX := cross3 (tail3 q) xn in
  match j with
  | O => rCrossX i
  | S j' => - q 0%nat%nat * skew xn i j' - skew rCrossX i j' - mat3mul (skew (tail3 q)) (skew xn) i j'
  end * (2 * vectorNorm).

(** QuaternionUtils.cpp:113-128. *)
Definition Rleb (a b : R) : bool := if Rle_dec a b then true else false.
Definition QuaternionBoundsRespected (q : vec) : bool :=
  (Rleb (-1) (q 0%nat%nat) && Rleb (q 0%nat%nat) (1 + 1 / 1000000) &&
   Rleb (-1 - 1 / 1000000) (q 1%nat%nat) && Rleb (q 1%nat%nat) (1 + 1 / 1000000) &&
   Rleb (-1 - 1 / 1000000) (q 2%nat%nat) && Rleb (q 2%nat%nat) (1 + 1 / 1000000) &&
   Rleb (-1 - 1 / 1000000) (q 3%nat%nat) && Rleb (q 3%nat%nat) (1 + 1 / 1000000))%bool.

(** QuaternionUtils.cpp:137-143. *)
Definition InverseQuaternion (q : vec) : vec := fun i => match i with O => q O | S _ => - q i end.
(** QuaternionUtils.cpp:145-153. *)
Definition InverseQuaternionDerivative : mat := fun i j =>
  match i, j with 0%nat, 0%nat => 1 | 1%nat, 1%nat => -1 | 2%nat, 2%nat => -1 | 3%nat, 3%nat => -1 | _, _ => 0 end.

(** QuaternionUtils.cpp:155-168 (3 x 4). *)
Definition InverseTimesQuaternionDerivativeJacobian (qd : vec) : mat := fun i j =>
  match j with
  | O => tail3 qd i
  | S j' => identity i j' * - qd 0%nat + skew (tail3 qd) i j'
  end * 2.
