(** Independent vocabulary for the kinematics of the robot (C57-...): rotations, rigid transforms, twists and
    wrenches (linear part first), and what it means for a transform to move with a given velocity.  Nothing here
    mentions the model of the code. *)
From Coq Require Import Reals List Arith Bool.
From Coquelicot Require Import Coquelicot.
From Verif Require Import Spec.
Import ListNotations.
Local Open Scope R_scope.

(** * Vectors and matrices of the 3D space *)
Record v3 := V3 { vx : R; vy : R; vz : R }.
Record m3 := M3 { a00 : R; a01 : R; a02 : R; a10 : R; a11 : R; a12 : R; a20 : R; a21 : R; a22 : R }.

Definition v30 : v3 := V3 0 0 0.
Definition vadd (a b : v3) : v3 := V3 (vx a + vx b) (vy a + vy b) (vz a + vz b).
Definition vopp (a : v3) : v3 := V3 (- vx a) (- vy a) (- vz a).
Definition vscale (k : R) (a : v3) : v3 := V3 (k * vx a) (k * vy a) (k * vz a).
Definition vdot (a b : v3) : R := vx a * vx b + vy a * vy b + vz a * vz b.
Definition vcross (a b : v3) : v3 :=
  V3 (vy a * vz b - vz a * vy b) (vz a * vx b - vx a * vz b) (vx a * vy b - vy a * vx b).

Definition m30 : m3 := M3 0 0 0 0 0 0 0 0 0.
Definition m3I : m3 := M3 1 0 0 0 1 0 0 0 1.
Definition madd (A B : m3) : m3 :=
  M3 (a00 A + a00 B) (a01 A + a01 B) (a02 A + a02 B) (a10 A + a10 B) (a11 A + a11 B) (a12 A + a12 B)
     (a20 A + a20 B) (a21 A + a21 B) (a22 A + a22 B).
Definition mneg (A : m3) : m3 :=
  M3 (- a00 A) (- a01 A) (- a02 A) (- a10 A) (- a11 A) (- a12 A) (- a20 A) (- a21 A) (- a22 A).
Definition mtr (A : m3) : m3 := M3 (a00 A) (a10 A) (a20 A) (a01 A) (a11 A) (a21 A) (a02 A) (a12 A) (a22 A).
Definition mv (A : m3) (x : v3) : v3 :=
  V3 (a00 A * vx x + a01 A * vy x + a02 A * vz x) (a10 A * vx x + a11 A * vy x + a12 A * vz x)
     (a20 A * vx x + a21 A * vy x + a22 A * vz x).
Definition mm (A B : m3) : m3 :=
  M3 (a00 A * a00 B + a01 A * a10 B + a02 A * a20 B) (a00 A * a01 B + a01 A * a11 B + a02 A * a21 B) (a00 A * a02 B + a01 A * a12 B + a02 A * a22 B)
     (a10 A * a00 B + a11 A * a10 B + a12 A * a20 B) (a10 A * a01 B + a11 A * a11 B + a12 A * a21 B) (a10 A * a02 B + a11 A * a12 B + a12 A * a22 B)
     (a20 A * a00 B + a21 A * a10 B + a22 A * a20 B) (a20 A * a01 B + a21 A * a11 B + a22 A * a21 B) (a20 A * a02 B + a21 A * a12 B + a22 A * a22 B).
Definition mdet (A : m3) : R :=
  a00 A * (a11 A * a22 A - a12 A * a21 A) - a01 A * (a10 A * a22 A - a12 A * a20 A) + a02 A * (a10 A * a21 A - a11 A * a20 A).
(** The matrix of the cross product with [w]. *)
Definition skew (w : v3) : m3 := M3 0 (- vz w) (vy w) (vz w) 0 (- vx w) (- vy w) (vx w) 0.

(** Rotations: the columns are orthonormal and the determinant is one. *)
Definition rotation (A : m3) : Prop := mm (mtr A) A = m3I /\ mdet A = 1.

(** Entries. *)
Definition vent (a : v3) : vec := fun i => match i with 0%nat => vx a | 1%nat => vy a | 2%nat => vz a | _ => 0 end.
Definition ment (A : m3) : mat := fun i j =>
  match i, j with
  | 0%nat, 0%nat => a00 A | 0%nat, 1%nat => a01 A | 0%nat, 2%nat => a02 A
  | 1%nat, 0%nat => a10 A | 1%nat, 1%nat => a11 A | 1%nat, 2%nat => a12 A
  | 2%nat, 0%nat => a20 A | 2%nat, 1%nat => a21 A | 2%nat, 2%nat => a22 A
  | _, _ => 0
  end.

(** * Rigid transforms: x becomes R x + p *)
Record pose := Pose { rot : m3; pos : v3 }.
Definition pid : pose := Pose m3I v30.
Definition pmul (A B : pose) : pose := Pose (mm (rot A) (rot B)) (vadd (mv (rot A) (pos B)) (pos A)).
Definition pinv (A : pose) : pose := Pose (mtr (rot A)) (vopp (mv (mtr (rot A)) (pos A))).
Definition papply (A : pose) (x : v3) : v3 := vadd (mv (rot A) x) (pos A).
Definition rigid (A : pose) : Prop := rotation (rot A).

(** * Twists (linear velocity, angular velocity) and wrenches (force, torque), 6x6 matrices in blocks *)
Record v6 := V6 { lin : v3; ang : v3 }.
Record m6 := M6 { bll : m3; bla : m3; bal : m3; baa : m3 }.
Definition v60 : v6 := V6 v30 v30.
Definition v6add (a b : v6) : v6 := V6 (vadd (lin a) (lin b)) (vadd (ang a) (ang b)).
Definition v6opp (a : v6) : v6 := V6 (vopp (lin a)) (vopp (ang a)).
Definition v6scale (k : R) (a : v6) : v6 := V6 (vscale k (lin a)) (vscale k (ang a)).
Definition v6dot (a b : v6) : R := vdot (lin a) (lin b) + vdot (ang a) (ang b).
Definition m6mul (A B : m6) : m6 :=
  M6 (madd (mm (bll A) (bll B)) (mm (bla A) (bal B))) (madd (mm (bll A) (bla B)) (mm (bla A) (baa B)))
     (madd (mm (bal A) (bll B)) (mm (baa A) (bal B))) (madd (mm (bal A) (bla B)) (mm (baa A) (baa B))).
Definition m6v (A : m6) (x : v6) : v6 :=
  V6 (vadd (mv (bll A) (lin x)) (mv (bla A) (ang x))) (vadd (mv (bal A) (lin x)) (mv (baa A) (ang x))).
Definition m6add (A B : m6) : m6 := M6 (madd (bll A) (bll B)) (madd (bla A) (bla B)) (madd (bal A) (bal B)) (madd (baa A) (baa B)).
Definition m6neg (A : m6) : m6 := M6 (mneg (bll A)) (mneg (bla A)) (mneg (bal A)) (mneg (baa A)).
Definition m60 : m6 := M6 m30 m30 m30 m30.
Definition m6I : m6 := M6 m3I m30 m30 m3I.
Definition v6ent (a : v6) : vec := fun i => if (i <? 3)%nat then vent (lin a) i else vent (ang a) (i - 3)%nat.
Definition m6ent (A : m6) : mat := fun i j =>
  if (i <? 3)%nat then (if (j <? 3)%nat then ment (bll A) i j else ment (bla A) i (j - 3)%nat)
  else (if (j <? 3)%nat then ment (bal A) (i - 3)%nat j else ment (baa A) (i - 3)%nat (j - 3)%nat).

(** The map from the twists seen in the target frame to the twists seen in the base frame, and the same for wrenches. *)
Definition Adj (H : pose) : m6 := M6 (rot H) (mm (skew (pos H)) (rot H)) m30 (rot H).
Definition AdjW (H : pose) : m6 := M6 (rot H) m30 (mm (skew (pos H)) (rot H)) (rot H).
(** The cross product of a twist with a twist, and with a wrench. *)
Definition adx (s : v6) : m6 := M6 (skew (ang s)) (skew (lin s)) m30 (skew (ang s)).
Definition adw (s : v6) : m6 := M6 (skew (ang s)) m30 (skew (lin s)) (skew (ang s)).

(** * Motion *)
Definition is_derive_v3 (f : R -> v3) (x : R) (d : v3) : Prop :=
  is_derive (fun t => vx (f t)) x (vx d) /\ is_derive (fun t => vy (f t)) x (vy d) /\ is_derive (fun t => vz (f t)) x (vz d).
Definition is_derive_m3 (f : R -> m3) (x : R) (d : m3) : Prop :=
  (is_derive (fun t => a00 (f t)) x (a00 d) /\ is_derive (fun t => a01 (f t)) x (a01 d) /\ is_derive (fun t => a02 (f t)) x (a02 d)) /\
  (is_derive (fun t => a10 (f t)) x (a10 d) /\ is_derive (fun t => a11 (f t)) x (a11 d) /\ is_derive (fun t => a12 (f t)) x (a12 d)) /\
  (is_derive (fun t => a20 (f t)) x (a20 d) /\ is_derive (fun t => a21 (f t)) x (a21 d) /\ is_derive (fun t => a22 (f t)) x (a22 d)).
(** At [x] the transform [f] moves with velocity [s], seen in the moving frame: R' = R w^, p' = R v. *)
Definition moves (f : R -> pose) (x : R) (s : v6) : Prop :=
  is_derive_m3 (fun t => rot (f t)) x (mm (rot (f x)) (skew (ang s))) /\
  is_derive_v3 (fun t => pos (f t)) x (mv (rot (f x)) (lin s)).

(** * Robots *)
(** A joint connects two links.  [j_pose x] is the transform from the second link to the first one when the joint is
    at [x]; [j_axis2] is the velocity of the second link for a unit joint velocity, the first link being still and
    seen in the second link; [j_axis1] is the same with the two links exchanged.  Both are constant. *)
Record joint := Joint { j_link1 : nat; j_link2 : nat; j_pose : R -> pose; j_axis1 : v6; j_axis2 : v6 }.
Definition joint_ok (j : joint) : Prop :=
  (forall x, rigid (j_pose j x)) /\
  (forall x, moves (j_pose j) x (j_axis2 j)) /\
  (forall x, moves (fun t => pinv (j_pose j t)) x (j_axis1 j)).
(** Joint number i is the i-th of the list; a frame is attached to a link, with an offset.  Frame number f is the link
    f itself when f is the index of a link, otherwise one of the additional frames. *)
Record robot := Robot { r_links : nat; r_joints : list joint; r_frames : list (nat * pose) }.
Definition frame_link (r : robot) (f : nat) : nat :=
  if (f <? r_links r)%nat then f else fst (nth (f - r_links r) (r_frames r) (0%nat, pid)).
Definition frame_offset (r : robot) (f : nat) : pose :=
  if (f <? r_links r)%nat then pid else snd (nth (f - r_links r) (r_frames r) (0%nat, pid)).
Definition is_frame (r : robot) (f : nat) : Prop := (f < r_links r + length (r_frames r))%nat.
Definition robot_ok (r : robot) : Prop :=
  (forall i j, nth_error (r_joints r) i = Some j -> joint_ok j /\ (j_link1 j < r_links r)%nat /\ (j_link2 j < r_links r)%nat) /\
  (forall f, (f < r_links r + length (r_frames r))%nat -> (frame_link r f < r_links r)%nat /\ rigid (frame_offset r f)).
(** [place s l]: the transform from link l to some fixed frame when the joints are at s. *)
Definition placement (r : robot) (place : vec -> nat -> pose) : Prop :=
  (forall s l, (l < r_links r)%nat -> rigid (place s l)) /\
  (forall s i j, nth_error (r_joints r) i = Some j -> place s (j_link2 j) = pmul (place s (j_link1 j)) (j_pose j (s i))).
(** The transform from frame [g] to frame [f]. *)
Definition frame_pose (r : robot) (place : vec -> nat -> pose) (s : vec) (f : nat) : pose :=
  pmul (place s (frame_link r f)) (frame_offset r f).
Definition relative (r : robot) (place : vec -> nat -> pose) (s : vec) (f g : nat) : pose :=
  pmul (pinv (frame_pose r place s f)) (frame_pose r place s g).

(** A traversal of the tree from link [b]: the parent of every other link and the joint that connects them; going
    up gets closer to [b]. *)
Definition connects (j : joint) (p c : nat) : Prop :=
  (j_link1 j = p /\ j_link2 j = c) \/ (j_link1 j = c /\ j_link2 j = p).
Definition traversal (r : robot) (b : nat) (up : nat -> option (nat * nat)) (depth : nat -> nat) : Prop :=
  (forall l, (l < r_links r)%nat -> l <> b -> exists p i j, up l = Some (p, i) /\ nth_error (r_joints r) i = Some j /\
     connects j p l /\ (p < r_links r)%nat /\ (depth p < depth l)%nat).
(** The velocity axis of joint [j] when [p] is still and [c] moves, seen in [c]. *)
Definition axis_of (j : joint) (c : nat) : v6 := if (j_link2 j =? c)%nat then j_axis2 j else j_axis1 j.

(** [w] is the velocity of frame [f], seen in [f], when the joints are at [s] and move with [sd] and the frame [base]
    moves with [b] (seen in [base]): whatever the motions with these velocities. *)
Definition frame_velocity (r : robot) (place : vec -> nat -> pose) (base : nat) (s sd : vec) (b : v6) (f : nat) (w : v6) : Prop :=
  forall (H : R -> pose) (sc : R -> vec) (x : R), moves H x b -> sc x = s -> (forall i, is_derive (fun t => sc t i) x (sd i)) ->
    moves (fun t => pmul (H t) (relative r place (sc t) base f)) x w.
