(** Model of the state cache of src/private/SharedKinDynComputations.cpp.
    The rigid body library (iDynTree::KinDynComputations) is external: it is an
    object that holds a model, a floating base and the last state it was given, and
    whose answers are functions of these. *)
From Coq Require Import Reals String List Arith Bool Lra Lia.
From Verif Require Import SpecKinDyn.
Import ListNotations.
Local Open Scope R_scope.

(** CheckEqualVector.h:17-29, with checkDoublesAreEqual: fabs(a-b) < tol. *)
Fixpoint VectorsAreEqual (tol : R) (a b : list R) : bool :=
  match a, b with
  | [], [] => true
  | x :: a', y :: b' => (if Rlt_dec (Rabs (x - y)) tol then true else false) && VectorsAreEqual tol a' b'
  | _, _ => false
  end.

Section Cache.
Variables (Model Query Answer : Type).
(** setRobotState succeeds (sizes match the model); setFloatingBase and
    loadRobotModel succeed. *)
Variable stateAccepted : Model -> robot_state -> bool.
Variable baseAccepted : Model -> string -> bool.
Variable modelAccepted : Model -> bool.
(** Answer of the library for a model, base, state and gravity; and when no state was
    ever given since the model or base was set. *)
Variable answer : Model -> string -> robot_state -> list R -> Query -> Answer.
Variable answerDefault : Model -> string -> Query -> Answer.
(** Number of degrees of freedom and default base of a model. *)
Variable dofs : Model -> nat.
Variable defaultBase : Model -> string.

(** Data (lines 19-44): the fields the cache uses.  [kin]: state and gravity last given to
    the library; [baseTransformOf]: the state the stored base transform was computed from. *)
Record data := mkData { kmodel : Model; kbase : string; kin : option (robot_state * list R);
  cstate : robot_state; gravity : list R; updateNecessary : bool; tol : R; baseTransformOf : option robot_state }.

(** :46-58 *)
Definition sameState (d : data) (o : robot_state) : bool :=
  negb (updateNecessary d)
  && VectorsAreEqual (tol d) (base_position o) (base_position (cstate d))
  && VectorsAreEqual (tol d) (base_quaternion o) (base_quaternion (cstate d))
  && VectorsAreEqual (tol d) (joints_s o) (joints_s (cstate d))
  && VectorsAreEqual (tol d) (base_linearVelocity o) (base_linearVelocity (cstate d))
  && VectorsAreEqual (tol d) (base_quaternionVelocity o) (base_quaternionVelocity (cstate d))
  && VectorsAreEqual (tol d) (joints_dot o) (joints_dot (cstate d)).
(** :60-86 (and :347-352).  The base transform is overwritten before the library is asked. *)
Definition updateRobotState (d : data) (s : robot_state) : data * bool :=
  if sameState d s then (d, true)
  else if stateAccepted (kmodel d) s
  then (mkData (kmodel d) (kbase d) (Some (s, gravity d)) s (gravity d) false (tol d) (Some s), true)
  else (mkData (kmodel d) (kbase d) (kin d) (cstate d) (gravity d) (updateNecessary d) (tol d) (Some s), false).
(** :359-400, 413-495, 544-..: update, then ask the library.  (The queries that return
    bool return false on a failed update; the others assert, which release builds skip.) *)
Definition ask (d : data) (q : Query) : Answer :=
  match kin d with Some (s, g) => answer (kmodel d) (kbase d) s g q | None => answerDefault (kmodel d) (kbase d) q end.
Definition query (d : data) (s : robot_state) (q : Query) : data * option Answer :=
  let '(d', ok) := updateRobotState d s in
  (d', if ok then Some (ask d' q) else None).
(** :402-410 (release build: the assertion is not evaluated).  The answer is named by the
    state whose base transform is returned. *)
Definition getBaseTransform (d : data) (s : robot_state) : data * option robot_state :=
  let '(d', _) := updateRobotState d s in (d', baseTransformOf d').
(** :279-286 *)
Definition setGravity (d : data) (g : list R) : data :=
  mkData (kmodel d) (kbase d) (kin d) (cstate d) g
    (if VectorsAreEqual (tol d) g (gravity d) then updateNecessary d else true) (tol d) (baseTransformOf d).
(** :293-304 *)
Definition setToleranceForUpdate (d : data) (t : R) : data * bool :=
  if Rlt_dec t 0 then (d, false)
  else (mkData (kmodel d) (kbase d) (kin d) (cstate d) (gravity d) (updateNecessary d) t (baseTransformOf d), true).
(** :311-328 (the traversal computation is assumed to succeed).  What the library holds
    after a change of base is left unspecified. *)
Definition setFloatingBase (d : data) (b : string) : data * bool :=
  if baseAccepted (kmodel d) b
  then (mkData (kmodel d) b None (cstate d) (gravity d) true (tol d) (baseTransformOf d), true)
  else (mkData (kmodel d) (kbase d) (kin d) (cstate d) (gravity d) true (tol d) (baseTransformOf d), false).
(** :232-267: only the joint entries of the cached state are reset; updateNecessary is not
    touched. *)
Definition loadRobotModel (d : data) (m : Model) : data * bool :=
  if modelAccepted m
  then (mkData m (defaultBase m) None
          (mkRobotState (base_position (cstate d)) (base_quaternion (cstate d)) (repeat 0 (dofs m))
             (base_linearVelocity (cstate d)) (base_quaternionVelocity (cstate d)) (repeat 0 (dofs m)))
          (gravity d) (updateNecessary d) (tol d) (baseTransformOf d), true)
  else (d, false).
(** :193-205, then a loaded model; DEFAULT_TOL is 1e-10. *)
Definition newData (m : Model) : data :=
  mkData m (defaultBase m) None
    (mkRobotState [0;0;0] [1;0;0;0] (repeat 0 (dofs m)) [0;0;0] [0;0;0;0] (repeat 0 (dofs m)))
    [0; 0; -981/100] true (1 / 10 ^ 10) None.

Inductive op := Ask (s : robot_state) (q : Query) | Base (s : robot_state) | Update (s : robot_state)
  | Gravity (g : list R) | Tol (t : R) | FloatingBase (b : string) | Load (m : Model).
Definition step (d : data) (o : op) : data :=
  match o with
  | Ask s q => fst (query d s q)
  | Base s => fst (getBaseTransform d s)
  | Update s => fst (updateRobotState d s)
  | Gravity g => setGravity d g
  | Tol t => fst (setToleranceForUpdate d t)
  | FloatingBase b => fst (setFloatingBase d b)
  | Load m => fst (loadRobotModel d m)
  end.
Definition exec (d : data) (l : list op) : data := fold_left step l d.
End Cache.
