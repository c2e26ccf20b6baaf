(** Model of src/State.cpp and src/Control.cpp (containers and foot queries). *)
From Coq Require Import Reals List Arith Bool Lra Lia.
From Verif Require Import SpecState SpecGeometry SpecReference SpecContainers.
Import ListNotations.
Local Open Scope R_scope.

Section Containers.
Variable Rot : Type.
Variable idR : Rot.
(** Value of an element appended by std::vector::resize (default constructed), and
    iDynTree::VectorDynSize::resize (external: only its size is assumed, where
    needed). *)
Variable freshPoint : point_state.
Variable freshControl : point_control.
Variable resizeV : nat -> list R -> list R.

(** State.cpp:62-67 *)
Definition state_resize (dofs n : nat) (s : state Rot) : state Rot :=
  {| leftContactPointsState := resized n freshPoint (leftContactPointsState s);
     rightContactPointsState := resized n freshPoint (rightContactPointsState s);
     momentumInCoM := momentumInCoM s; comPosition := comPosition s; basePosition := basePosition s;
     baseRotation := baseRotation s; jointsConfiguration := resizeV dofs (jointsConfiguration s); stateTime := stateTime s |}.
(** State.cpp:69-86 *)
Definition zero_all (l : list R) : list R := map (fun _ => 0) l.
Definition state_zeroed (s : state Rot) : state Rot :=
  {| leftContactPointsState := map (fun _ => mkPointState zero3 zero3) (leftContactPointsState s);
     rightContactPointsState := map (fun _ => mkPointState zero3 zero3) (rightContactPointsState s);
     momentumInCoM := zero6; comPosition := zero3; basePosition := zero3; baseRotation := idR;
     jointsConfiguration := zero_all (jointsConfiguration s); stateTime := 0 |}.
(** State.cpp:53-57: constructor ([garbage]: uninitialised members, with empty vectors). *)
Definition state_new (garbage : state Rot) (dofs n : nat) : state Rot := state_zeroed (state_resize dofs n garbage).
(** State.cpp:88-93 *)
Definition state_sameSize (s o : state Rot) : bool :=
  Nat.eqb (length (leftContactPointsState s)) (length (leftContactPointsState o))
  && Nat.eqb (length (rightContactPointsState s)) (length (rightContactPointsState o))
  && Nat.eqb (length (jointsConfiguration s)) (length (jointsConfiguration o)).
(** State.cpp:95-100 *)
Definition state_checkSize (s : state Rot) (dofs n : nat) : bool :=
  Nat.eqb (length (leftContactPointsState s)) n && Nat.eqb (length (rightContactPointsState s)) n
  && Nat.eqb (length (jointsConfiguration s)) dofs.

(** Control.cpp:60-65, 67-85, 51-55, 87-92, 94-99 *)
Definition control_resize (dofs n : nat) (c : control) : control :=
  {| leftContactPointsControl := resized n freshControl (leftContactPointsControl c);
     rightContactPointsControl := resized n freshControl (rightContactPointsControl c);
     baseLinearVelocity := baseLinearVelocity c; baseQuaternionDerivative := baseQuaternionDerivative c;
     jointsVelocity := resizeV dofs (jointsVelocity c); controlTime := controlTime c |}.
Definition control_zeroed (c : control) : control :=
  {| leftContactPointsControl := map (fun _ => mkPointControl zero3 zero3) (leftContactPointsControl c);
     rightContactPointsControl := map (fun _ => mkPointControl zero3 zero3) (rightContactPointsControl c);
     baseLinearVelocity := zero3; baseQuaternionDerivative := zero4;
     jointsVelocity := zero_all (jointsVelocity c); controlTime := 0 |}.
Definition control_new (garbage : control) (dofs n : nat) : control := control_zeroed (control_resize dofs n garbage).
Definition control_sameSize (c o : control) : bool :=
  Nat.eqb (length (leftContactPointsControl c)) (length (leftContactPointsControl o))
  && Nat.eqb (length (rightContactPointsControl c)) (length (rightContactPointsControl o))
  && Nat.eqb (length (jointsVelocity c)) (length (jointsVelocity o)).
Definition control_checkSize (c : control) (dofs n : nat) : bool :=
  Nat.eqb (length (leftContactPointsControl c)) n && Nat.eqb (length (rightContactPointsControl c)) n
  && Nat.eqb (length (jointsVelocity c)) dofs.

(** Accumulation loops "mean += position". *)
Definition accumulate (acc : V3) (l : list point_state) : V3 :=
  fold_left (fun a p => add3 a (pointPosition p)) l acc.
(** State.cpp:102-122 *)
Definition computeFeetCentroid (s : state Rot) : V3 :=
  let n := (length (leftContactPointsState s) + length (rightContactPointsState s))%nat in
  if Nat.eqb n 0 then zero3
  else scale3 (/ INR n) (accumulate (accumulate zero3 (leftContactPointsState s)) (rightContactPointsState s)).
(** State.cpp:124-145.  The mean of an empty foot is 0/0: the comparison with a NaN
    is false. *)
Definition gtb (a b : R) : bool := if Rlt_dec b a then true else false.
Definition leftIsForward (forward : V3) (s : state Rot) : bool :=
  let l := leftContactPointsState s in let r := rightContactPointsState s in
  if Nat.eqb (length l) 0 || Nat.eqb (length r) 0 then false
  else gtb (dot3 (scale3 (/ INR (length l)) (accumulate zero3 l)) forward)
           (dot3 (scale3 (/ INR (length r)) (accumulate zero3 r)) forward).
(** State.cpp:147-175.  [None]: dereference of begin() of an empty vector. *)
Definition minForce (l : list point_state) : option R :=
  match l with
  | [] => None
  | p :: r => Some (fold_left (fun m q => if Rlt_dec (norm3 (pointForce q)) m then norm3 (pointForce q) else m) r (norm3 (pointForce p)))
  end.
Definition minimumPointForceOnForwardFoot (forward : V3) (s : state Rot) : option R :=
  if leftIsForward forward s then minForce (leftContactPointsState s) else minForce (rightContactPointsState s).
End Containers.
