(** Independent vocabulary for C39 and C52: robot states and closeness. *)
From Coq Require Import Reals String List Arith Bool Lra.
Import ListNotations.
Local Open Scope R_scope.
Record robot_state := mkRobotState {
  base_position : list R; base_quaternion : list R; joints_s : list R;
  base_linearVelocity : list R; base_quaternionVelocity : list R; joints_dot : list R }.
(** Same size and every entry closer than [tol]. *)
Definition close_list (tol : R) (a b : list R) : Prop := Forall2 (fun x y => Rabs (x - y) < tol) a b.
Definition close (tol : R) (a b : robot_state) : Prop :=
  close_list tol (base_position a) (base_position b) /\ close_list tol (base_quaternion a) (base_quaternion b) /\
  close_list tol (joints_s a) (joints_s b) /\ close_list tol (base_linearVelocity a) (base_linearVelocity b) /\
  close_list tol (base_quaternionVelocity a) (base_quaternionVelocity b) /\ close_list tol (joints_dot a) (joints_dot b).
(** A state that stands for [s] within the tolerance: [s] itself or one close to it. *)
Definition stands_for (tol : R) (s s' : robot_state) : Prop := s' = s \/ close tol s s'.
