(** Model of the state handling and of the expression maps of
    src/private/ExpressionsServer.cpp. *)
From Coq Require Import Reals String List Arith Bool Lra Lia.
From Verif Require Import SpecKinDyn KinDynCache.
Import ListNotations.
Local Open Scope R_scope.

Section Server.
Variable Model : Type.
Variable stateAccepted : Model -> robot_state -> bool.
(** Index of the knot whose kinematics object TimelySharedKinDynComputations::get returns
    (see Timely.v). *)
Variable pick : R -> nat.
Notation D := (data Model).

(** Implementation (:30-61): the kinematics objects of the knots are shared with the
    constraints and costs; [vars] are the values of the levi variables. *)
Record world := mkWorld { knots : nat -> D; serverTime : R; vars : robot_state; robotState : robot_state; first : bool }.
Definition set_knot (k : nat -> D) (i : nat) (d : D) : nat -> D := fun j => if Nat.eqb j i then d else k j.

(** Constraints and costs update the kinematics objects directly, e.g.
    CentroidalMomentumConstraint.cpp:122, DynamicalConstraints.cpp:237-254. *)
Definition directUpdate (w : world) (t : R) (s : robot_state) : world :=
  mkWorld (set_knot (knots w) (pick t) (fst (updateRobotState Model stateAccepted (knots w (pick t)) s)))
    (serverTime w) (vars w) (robotState w) (first w).
(** ExpressionsServer.cpp:126-149 *)
Definition serverUpdateState (w : world) (t : R) (s : robot_state) : world * bool :=
  let i := pick t in
  if first w || negb (sameState Model (knots w i) s) then
    let '(d, ok) := updateRobotState Model stateAccepted (knots w i) s in
    if ok then (mkWorld (set_knot (knots w) i d) t s (cstate Model d) false, true)
    else (mkWorld (set_knot (knots w) i d) t (vars w) (robotState w) (first w), false)
  else (mkWorld (knots w) t (vars w) (robotState w) (first w), true).
(** ExpressionsServer.cpp:151-171 *)
Definition serverUpdate (w : world) (t : R) : world :=
  let i := pick t in
  if first w || negb (sameState Model (knots w i) (robotState w)) then
    mkWorld (knots w) t (cstate Model (knots w i)) (cstate Model (knots w i)) false
  else mkWorld (knots w) t (vars w) (robotState w) (first w).

Inductive op := Direct (t : R) (s : robot_state) | ServerState (t : R) (s : robot_state) | Server (t : R).
Definition step (w : world) (o : op) : world :=
  match o with
  | Direct t s => directUpdate w t s
  | ServerState t s => fst (serverUpdateState w t s)
  | Server t => serverUpdate w t
  end.
Definition exec (w : world) (l : list op) : world := fold_left step l w.
End Server.

(** The maps of expressions, e.g. ExpressionsServer.cpp:266-284: an expression is built the
    first time it is asked for and stored under the concatenation of the two names.  [build]
    is the constructor of the expression. *)
Section Memo.
Variable E : Type.
Variable build : string -> string -> E.
Fixpoint find (k : string) (m : list (string * E)) : option E :=
  match m with [] => None | (k', e) :: r => if String.eqb k k' then Some e else find k r end.
Definition lookup (m : list (string * E)) (a b : string) : list (string * E) * E :=
  let k := String.append a b in
  match find k m with
  | Some e => (m, e)
  | None => ((k, build a b) :: m, build a b)
  end.
Definition lookups (m : list (string * E)) (l : list (string * string)) : list (string * E) :=
  fold_left (fun m ab => fst (lookup m (fst ab) (snd ab))) l m.
End Memo.
