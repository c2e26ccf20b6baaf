(** What the momentum of a robot is, and what its derivative with respect to the joints is (C68-C71).  Nothing here
    mentions the model of the code. *)
From Coq Require Import Reals List Arith.
From Coquelicot Require Import Coquelicot.
From Verif Require Import Spec SpecRigid.
Import ListNotations.
Local Open Scope R_scope.

(** The sum f 0 + ... + f (n-1). *)
Fixpoint v6total (n : nat) (f : nat -> v6) : v6 := match n with O => v60 | S k => v6add (v6total k f) (f k) end.

(** [h] is the momentum (linear, angular) of the robot, seen in the base frame: every link l moves with a velocity w l,
    its momentum is inertia l times w l, brought to the base frame as a wrench. *)
Definition momentum_in (r : robot) (place : vec -> nat -> pose) (inertia : nat -> m6) (base : nat) (s sd : vec) (b : v6) (h : v6) : Prop :=
  exists w : nat -> v6, (forall l, (l < r_links r)%nat -> frame_velocity r place base s sd b l (w l)) /\
    h = v6total (r_links r) (fun l => m6v (AdjW (relative r place s base l)) (m6v (inertia l) (w l))).

(** [D] (6 rows, n columns) is the derivative of the twist or wrench [f s] with respect to the joints. *)
Definition joints_derivative (n : nat) (f : vec -> v6) (s : vec) (D : mat) : Prop :=
  forall i j, (i < 6)%nat -> (j < n)%nat -> is_derive (fun x => v6ent (f (vset s j x)) i) (s j) (D i j).
