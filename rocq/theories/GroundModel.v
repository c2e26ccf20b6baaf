(** Model of SetMinContactPointToZero, src/Utilities.cpp:118-196. *)
From Coq Require Import Reals List Arith Bool Lra Lia.
From Verif Require Import SpecState SpecGeometry SpecUtilities.
Import ListNotations.
Local Open Scope R_scope.

Definition set_com (c : V3) (s : state M3) : state M3 :=
  {| leftContactPointsState := leftContactPointsState s; rightContactPointsState := rightContactPointsState s;
     momentumInCoM := momentumInCoM s; comPosition := c; basePosition := basePosition s;
     baseRotation := baseRotation s; jointsConfiguration := jointsConfiguration s; stateTime := stateTime s |}.
Definition set_points (l r : list point_state) (s : state M3) : state M3 :=
  {| leftContactPointsState := l; rightContactPointsState := r;
     momentumInCoM := momentumInCoM s; comPosition := comPosition s; basePosition := basePosition s;
     baseRotation := baseRotation s; jointsConfiguration := jointsConfiguration s; stateTime := stateTime s |}.
Definition set_base (p : V3) (s : state M3) : state M3 :=
  {| leftContactPointsState := leftContactPointsState s; rightContactPointsState := rightContactPointsState s;
     momentumInCoM := momentumInCoM s; comPosition := comPosition s; basePosition := p;
     baseRotation := baseRotation s; jointsConfiguration := jointsConfiguration s; stateTime := stateTime s |}.

Definition set_position (p : V3) (x : point_state) : point_state := mkPointState (pointForce x) p.
(** "if (z < minZ) minZ = z" *)
Definition lower (z m : R) : R := if Rlt_dec z m then z else m.

(** Utilities.cpp:137-151: the loop over settings.leftPointsPosition, writing the
    two feet alternately.  [None]: an index is out of bounds (undefined). *)
Fixpoint place (tl tr : transform) (lp rp : list V3) (ls rs : list point_state) (minZ : R)
  : option (list point_state * list point_state * R) :=
  match lp with
  | [] => Some (ls, rs, minZ)
  | p :: lp' =>
    match ls, rp, rs with
    | l :: ls', q :: rp', r :: rs' =>
      let l' := set_position (tapply tl p) l in
      let m1 := lower (pz (pointPosition l')) minZ in
      let r' := set_position (tapply tr q) r in
      let m2 := lower (pz (pointPosition r')) m1 in
      match place tl tr lp' rp' ls' rs' m2 with
      | None => None
      | Some (ls'', rs'', m) => Some (l' :: ls'', r' :: rs'', m)
      end
    | _, _, _ => None
    end
  end.

Inductive outcome := Done (s : state M3) | Failed (s : state M3) | Undefined.

Section Ground.
(** iDynTree::KinDynComputations for the loaded model (external): the placement of
    frames is base pose composed with a joint dependent relative placement.
    setRobotState refuses joints of the wrong size. *)
Variable rob : robot.
Variable accepts : list R -> bool.
Variable lp rp : list V3.   (* settings.leftPointsPosition, rightPointsPosition *)

(** Utilities.cpp:118-168.  [None]: more than [fuel] recursive calls. *)
Fixpoint impl (fuel : nat) (s : state M3) : option outcome :=
  match fuel with
  | O => None
  | S fuel' =>
    if negb (accepts (jointsConfiguration s)) then Some (Failed s) else
    let s1 := set_com (world_com rob s) s in
    match place (world_left rob s) (world_right rob s) lp rp (leftContactPointsState s1) (rightContactPointsState s1) 1 with
    | None => Some Undefined
    | Some (ls, rs, minZ) =>
      let s2 := set_points ls rs s1 in
      let '(x, y, z) := basePosition s2 in
      if Rlt_dec minZ 0 then
        impl fuel' (set_base (x, y, z - 99/100 * minZ + 1/100000000) s2)
      else if Rlt_dec (1/100000000) minZ then
        impl fuel' (set_base (x, y, z - 99/100 * minZ) s2)
      else Some (Done (set_base (x, y, z - 2/100000000) s2))
    end
  end.

(** Utilities.cpp:170-196: the checks before; [valid], [loads]: answers of the
    settings and of KinDynComputations. *)
Definition setMinContactPointToZero (valid loads : bool) (fuel : nat) (s : state M3) : option outcome :=
  if negb valid then Some (Failed s) else if negb loads then Some (Failed s) else impl fuel s.
End Ground.
