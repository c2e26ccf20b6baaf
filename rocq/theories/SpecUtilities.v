(** Independent vocabulary for C40-C43: kinematics of a floating base robot, the
    height of the lowest contact point. *)
From Coq Require Import Reals List Arith Bool Lra.
From Verif Require Import SpecState SpecGeometry.
Import ListNotations.
Local Open Scope R_scope.

(** A floating base robot: placement of the two foot frames and of the centre of
    mass with respect to the base, as functions of the joints only. *)
Record robot := mkRobot {
  relLeft : list R -> transform; relRight : list R -> transform; relCoM : list R -> V3;
  robotMass : R }.

Definition mul33 (a b : M3) : M3 :=
  let '(r0, r1, r2) := b in
  let row := fun r : V3 => add3 (scale3 (px r) r0) (add3 (scale3 (py r) r1) (scale3 (pz r) r2)) in
  let '(a0, a1, a2) := a in (row a0, row a1, row a2).
Definition compose (a b : transform) : transform := (mul33 (fst a) (fst b), tapply a (snd b)).

(** World placement of the feet and of the centre of mass for a base pose. *)
Definition base_of (s : state M3) : transform := (baseRotation s, basePosition s).
Definition world_left (r : robot) (s : state M3) : transform := compose (base_of s) (relLeft r (jointsConfiguration s)).
Definition world_right (r : robot) (s : state M3) : transform := compose (base_of s) (relRight r (jointsConfiguration s)).
Definition world_com (r : robot) (s : state M3) : V3 := tapply (base_of s) (relCoM r (jointsConfiguration s)).

(** World position of all contact points, left foot first. *)
Definition true_points (r : robot) (lp rp : list V3) (s : state M3) : list V3 :=
  map (tapply (world_left r s)) lp ++ map (tapply (world_right r s)) rp.
Definition recorded_points (s : state M3) : list V3 :=
  map pointPosition (leftContactPointsState s) ++ map pointPosition (rightContactPointsState s).

(** [h] is the height of the lowest of the points. *)
Definition lowest (h : R) (ps : list V3) : Prop := (exists p, In p ps /\ pz p = h) /\ forall p, In p ps -> h <= pz p.

Definition raise (h : R) (p : V3) : V3 := add3 p (0, 0, h).

(** The centre of mass and the foot frame are over the foot: the rectangle with
    top left corner [tl] and sides [xl], [yl] contains (x, 0), up to a margin
    relative to the sides. *)
Definition over_foot (margin xl yl : R) (tl : V3) (x : R) : Prop :=
  px tl - xl + margin * xl <= x <= px tl - margin * xl /\
  py tl - yl + margin * yl <= 0 <= py tl - margin * yl.

(** Forces and positions of all points of a state, left foot first. *)
Definition recorded_forces (s : state M3) : list V3 :=
  map pointForce (leftContactPointsState s) ++ map pointForce (rightContactPointsState s).
Definition gravity_acceleration : R := 981/100.
