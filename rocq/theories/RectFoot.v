(** Model of src/RectangularFoot.cpp. *)
From Coq Require Import Reals List Arith Bool Lra.
From Verif Require Import Spec SpecState SpecGeometry.
Import ListNotations.
Local Open Scope R_scope.

(** RectangularFoot.cpp:16-29: what setFoot stores; before the first accepted call
    (footSet = false) halfL and halfD are indeterminate, modelled by [None].
    The regression matrices only depend on the stored points: they are rebuilt
    where they are used. *)
Record footdata := mkFoot { halfL : R; halfD : R; center : V3 }.
Definition foot := option footdata.
Definition newFoot : foot := None.

(** RectangularFoot.cpp:51-94. *)
Definition setFoot (s : foot) (xLength yLength : R) (topLeft : V3) : foot * bool :=
  if Rle_dec xLength 0 then (s, false) else
  if Rle_dec yLength 0 then (s, false) else
  let hl := xLength / 2 in
  let hd := yLength / 2 in
  (Some (mkFoot hl hd (add3 topLeft (- hl, - hd, 0))), true).

(** RectangularFoot.cpp:69-83: corners relative to the center. *)
Definition corner (d : footdata) (i : nat) : V3 :=
  match i with
  | O => (halfL d, halfD d, 0)
  | 1%nat => (halfL d, - halfD d, 0)
  | 2%nat => (- halfL d, halfD d, 0)
  | _ => (- halfL d, - halfD d, 0)
  end.

(** RectangularFoot.cpp:96-110; [None]: the call returns false. *)
Definition getPoints (s : foot) (t : transform) : option (list V3) :=
  match s with
  | None => None
  | Some d => Some (map (fun i => tapply t (add3 (center d) (corner d i))) [0;1;2;3]%nat)
  end.

(** RectangularFoot.cpp:112-127; [None]: halfL and halfD are read before being
    set (undefined). *)
Definition normalRatios (d : footdata) (copX copY : R) : list R :=
  let l := 2 * halfL d in
  let dd := 2 * halfD d in
  let r3 := (Rmax 0 (- copX / l - copY / dd) + Rmin (5/10 - copY / dd) (5/10 - copX / l)) / 2 in
  let r0 := r3 + copX / l + copY / dd in
  let r1 := - r3 + 5/10 - copY / dd in
  let r2 := 1 - r0 - r1 - r3 in
  [r0; r1; r2; r3].
Definition getNormalRatiosFromCoP (s : foot) (copX copY : R) : option (list R) :=
  match s with None => None | Some d => Some (normalRatios d copX copY) end.

(** RectangularFoot.cpp:85-89: row 2 of the regression matrix; rows 0 and 1 are
    2 x 2 identity blocks. *)
Definition regression (pts : list V3) : mat := fun r k =>
  let p := nth (k / 2) pts zero3 in
  match r with
  | O => if Nat.even k then 1 else 0
  | 1%nat => if Nat.even k then 0 else 1
  | _ => if Nat.even k then - py p else px p
  end.

Definition forceThreshold : R := 1 / 10000000.
Definition isActive (a : R) : bool := if Rlt_dec forceThreshold (Rabs a) then true else false.

(** RectangularFoot.cpp:189-219: the tangential components of the active points
    are taken from the solution in order. *)
Fixpoint fillReduced (el : nat) (active : list bool) (normal : list R) (x : vec) : list V3 :=
  match active, normal with
  | a :: active', n :: normal' =>
    if a then (x (2 * el)%nat, x (2 * el + 1)%nat, n) :: fillReduced (S el) active' normal' x
    else zero3 :: fillReduced el active' normal' x
  | _, _ => []
  end.
Fixpoint fillAll (el : nat) (normal : list R) (x : vec) : list V3 :=
  match normal with
  | n :: normal' => (x (2 * el)%nat, x (2 * el + 1)%nat, n) :: fillAll (S el) normal' x
  | [] => []
  end.

Section Solve.
(** Eigen's colPivHouseholderQr().solve for a 3 x n matrix (external). *)
Variable qrsolve : nat -> mat -> vec -> vec.

(** RectangularFoot.cpp:129-236; a wrench is (force, torque) in the foot frame.
    [None]: the call returns false.  iDynTree's Transform * Wrench with an
    identity rotation and translation -center gives torque - center x force. *)
Definition getForces (s : foot) (w : V3 * V3) : option (list V3) :=
  match s with
  | None => None
  | Some d =>
    let '(fx, fy, fz) := fst w in
    let '(tx, ty, tz) := sub3 (snd w) (cross3v (center d) (fst w)) in
    let copX := - ty / fz in
    let copY := tx / fz in
    if Rlt_dec fz (1 / 10000000) then Some [zero3; zero3; zero3; zero3] else
    let alphas := normalRatios d copX copY in
    let normal := map (fun a => a * fz) alphas in
    let b : vec := fun i => match i with O => fx | 1%nat => fy | _ => tz end in
    let active := map isActive alphas in
    let n := length (filter (fun x => x) active) in
    if Nat.eqb n 1 then
      Some (map (fun an => if fst an : bool then (fx, fy, snd an) else zero3) (combine active normal))
    else if Nat.eqb n 2 then
      let pts := map (fun ia => corner d (fst ia)) (filter (fun ia => snd ia) (combine [0;1;2;3]%nat active)) in
      Some (fillReduced 0 active normal (qrsolve 4 (regression pts) b))
    else
      Some (fillAll 0 normal (qrsolve 8 (regression (map (corner d) [0;1;2;3]%nat)) b))
  end.
End Solve.
