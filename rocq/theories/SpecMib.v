(** What the second derivative of a twist or wrench with respect to the joints is (C72).  Nothing here mentions the model
    of the code. *)
From Coq Require Import Reals List Arith.
From Coquelicot Require Import Coquelicot.
From Verif Require Import Spec SpecRigid SpecMom.
Local Open Scope R_scope.

(** [M] (6 rows, n columns) is the derivative with respect to the joints of column k of the derivative of [f] with respect
    to the joints. *)
Definition joints_second_derivative (n : nat) (f : vec -> v6) (k : nat) (s : vec) (M : mat) : Prop :=
  forall D, (forall s, joints_derivative n f s (D s)) ->
    forall i j, (i < 6)%nat -> (j < n)%nat -> is_derive (fun x => D (vset s j x) i k) (s j) (M i j).
