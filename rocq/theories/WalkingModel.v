(** Model of SimpleWalkingStateMachine, src/Utilities.cpp:230-360. *)
From Coq Require Import Reals List Arith Bool Lra Lia.
From Verif Require Import SpecState SpecGeometry SpecReference SpecContainers StateModel PosRef.
Import ListNotations.
Local Open Scope R_scope.

(** iDynTree TimeRange::setTimeInterval (external): refused when the end is before
    the start; the code ignores the answer. *)
Definition setTimeInterval (r : timerange) (i e : R) : timerange :=
  if Rlt_dec e i then r else mkRange i e (anyTime r).
Definition setRange (x : timed) (i e : R) : timed := mkTimed (desiredPosition x) (setTimeInterval (activeRange x) i e).
Definition setPosition (x : timed) (p : V3) : timed := mkTimed p (activeRange x).

(** Members; [refs]: the elements 0 and 1 of the PositionReferenceGenerator. *)
Record machine := mkMachine {
  first : timed; second : timed; stepIncrement : V3; stepDuration : R; horizon : R;
  minimumDt : R; m_forceThreshold : R; positionThreshold : R }.

(** Utilities.cpp:230-261; [None]: returns false (the members are untouched).
    The weight factors only go to the generator, see PosRef. *)
Definition initialize (start inc : V3) (dur hor dt fthr pthr : R) : option machine :=
  if Rlt_dec fthr 0 then None else
  if Rlt_dec hor dt then None else
  if Rlt_dec dur dt then None else
  Some (mkMachine (setRange (setPosition zeroElement start) 0 dur)
                  (setRange (setPosition zeroElement start) (hor + 1) (hor + 1)) inc dur hor dt fthr pthr).

Definition isLt (a b : R) : bool := if Rlt_dec a b then true else false.
Definition isLe (a b : R) : bool := if Rle_dec a b then true else false.

Definition with_refs (m : machine) (a b : timed) : machine :=
  mkMachine a b (stepIncrement m) (stepDuration m) (horizon m) (minimumDt m) (m_forceThreshold m) (positionThreshold m).

(** Utilities.cpp:299-302: a new step is put at the end of the horizon. *)
Definition insertNow (m : machine) (futureError : R) : bool :=
  isLt (horizon m) (initTime (activeRange (second m))) &&
  isLe (endTime (activeRange (first m))) (6/10 * horizon m) &&
  (isLt futureError (positionThreshold m) ||
   isLt (2 * stepDuration m) (endTime (activeRange (first m)) - initTime (activeRange (first m)))).
(** Utilities.cpp:303-312 *)
Definition insert (m : machine) : machine :=
  with_refs m (first m)
    (setPosition (setRange (second m) (horizon m) (horizon m + stepDuration m))
                 (add3 (desiredPosition (first m)) (stepIncrement m))).
(** Utilities.cpp:314-358 *)
Definition proceed (m : machine) (time minForce : R) : machine :=
  let stepStart := initTime (activeRange (first m)) - time in
  if isLe (initTime (activeRange (second m))) (horizon m) then
    if isLt stepStart (3/10 * horizon m) && isLt minForce (m_forceThreshold m) then
      with_refs m (setRange (first m) stepStart (endTime (activeRange (first m)))) (second m)
    else if isLt (stepStart + stepDuration m) (minimumDt m) then
      with_refs m (setRange (setPosition (first m) (desiredPosition (second m))) 0 (stepDuration m))
                  (setRange (second m) (horizon m + 1) (horizon m + 1))
    else
      let start2 := initTime (activeRange (second m)) - time in
      with_refs m (setRange (first m) stepStart (stepStart + stepDuration m))
                  (setRange (second m) start2 (start2 + stepDuration m))
  else
    with_refs m (setRange (first m) stepStart (Rmax (stepStart + stepDuration m) (6/10 * horizon m))) (second m).

Section Machine.
Variable Rot : Type.
(** Utilities.cpp:268-360.  [None]: undefined, the forward foot of the current
    state has no points (State.cpp:147-175). *)
Definition advance (m : machine) (current future : state Rot) : option machine :=
  let futureError := norm3 (sub3 (computeFeetCentroid Rot future) (desiredPosition (first m))) in
  match minimumPointForceOnForwardFoot Rot (stepIncrement m) current with
  | None => None
  | Some minForce =>
    let m1 := if insertNow m futureError then insert m else m in
    Some (proceed m1 (stateTime current) minForce)
  end.

(** An object: before a successful initialize, advance returns false. *)
Inductive call := Initialize (start inc : V3) (dur hor dt fthr pthr : R) | Advance (current future : state Rot).
Inductive answer := Returned (ok : bool) (o : option machine) | UndefinedBehaviour.
Definition do_call (o : option machine) (c : call) : answer :=
  match c with
  | Initialize start inc dur hor dt fthr pthr =>
    match initialize start inc dur hor dt fthr pthr with None => Returned false o | Some m => Returned true (Some m) end
  | Advance cur fut =>
    match o with
    | None => Returned false None
    | Some m => match advance m cur fut with None => UndefinedBehaviour | Some m' => Returned true (Some m') end
    end
  end.
Fixpoint advances (m : machine) (ins : list (state Rot * state Rot)) : option machine :=
  match ins with
  | [] => Some m
  | (c, f) :: r => match advance m c f with None => None | Some m' => advances m' r end
  end.
End Machine.
