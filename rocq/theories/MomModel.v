(** Model of the derivatives of SharedKinDynComputations with respect to the joints (src/private/SharedKinDynComputations.cpp). *)
From Coq Require Import Reals List Arith Bool.
From Verif Require Import Spec SpecQuaternion SpecRigid SpecBase KinModel BaseProofs.
Import ListNotations.
Local Open Scope R_scope.

(** include/DynamicalPlannerPrivate/Utilities/SharedKinDynComputations.h:28-36: RobotState.  (The world contacts
    are not modelled.) *)
Record rstate := RState { st_p : vec; st_q : vec; st_s : vec; st_lin : vec; st_qd : vec; st_sd : vec }.
Definition with_s (st : rstate) (s : vec) : rstate := RState (st_p st) (st_q st) s (st_lin st) (st_qd st) (st_sd st).
(** SharedKinDynComputations.cpp:71-76: the twist given to setRobotState.  The cache of updateRobotStatePrivate is the subject
    of C39; here the state is the one asked for. *)
Definition base_twist_of (st : rstate) : v6 :=
  V6 (V3 (st_lin st 0%nat) (st_lin st 1%nat) (st_lin st 2%nat)) (Ginv3 (qunit (st_q st)) (st_qd st)).

Section Mom.
Variable r : robot.
Variable dofs : nat.                                (* jointsInfos.size() = getNrOfDegreesOfFreedom() *)
Variable up : nat -> option (nat * nat).            (* m_data->traversal, computed from the floating base (:243, 321) *)
Variable base : nat.                                (* model.getLinkIndex(kinDyn.getFloatingBase()) *)
Variable child parent : nat -> nat.                 (* jointsInfos[j].childIndex, parentIndex (:97-98) *)
Variable inertia : nat -> m6.                       (* model.getLink(l)->getInertia() *)
Variable rel : vec -> nat -> nat -> pose.           (* kinDyn.getRelativeTransform *)
Variable fvel : rstate -> nat -> v6.                (* kinDyn.getFrameVel, BODY_FIXED_REPRESENTATION *)

(** jointPtr->getMotionSubspaceVector(0, child, parent): only the orientation matters (see KinModel.motion_axis). *)
Definition info_axis (j : nat) : v6 := motion_axis r j (child j).
(** :111-114: motionVectorTimesChildVelocity. *)
Definition axis_times_velocity (st : rstate) (j : nat) : v6 := m6v (adx (info_axis j)) (v6opp (fvel st (child j))).

(** derivativeMap.col(j) = v and derivativeMap.col(j) += v. *)
Definition set_col (D : mat) (j : nat) (v : v6) : mat := fun i k => if (k =? j)%nat then v6ent v i else D i k.
Definition add_col (D : mat) (j : nat) (v : v6) : mat := fun i k => if (k =? j)%nat then D i k + v6ent v i else D i k.

(** SharedKinDynComputations.cpp:497-542.  The result is the returned flag and the matrix; None stands for an access out of
    bounds (jointsInfos[jointIndex], or a null pointer in the traversal).  isValid() and updateRobotStatePrivate are supposed
    to succeed. *)
Definition vel_derivative (st : rstate) (f : nat) : option (bool * mat) :=
  if (f <? r_links r + length (r_frames r))%nat then
    match walk up base (fun _ _ j D => if (j <? dofs)%nat then Some (set_col D j (m6v (Adj (rel (st_s st) f (child j))) (axis_times_velocity st j))) else None)
            (S (r_links r)) (frame_link r f) (fun _ _ => 0) with
    | Some D => Some (true, D)
    | None => None
    end
  else Some (false, fun _ _ => 0).

(** :619-632, one joint of the path of link l. *)
Definition link_term (st : rstate) (l j : nat) : v6 :=
  let linkMomentum := m6v (inertia l) (fvel st l) in
  let inChild := m6v (AdjW (rel (st_s st) (child j) l)) linkMomentum in
  let transformDerivative := m6v (AdjW (rel (st_s st) base (child j))) (m6v (adw (info_axis j)) inChild) in
  let velocityDerivative := m6v (AdjW (rel (st_s st) base l)) (m6v (inertia l) (m6v (Adj (rel (st_s st) l (child j))) (axis_times_velocity st j))) in
  v6add transformDerivative velocityDerivative.
(** :607-640, one link. *)
Definition link_walk (st : rstate) (l : nat) (D : mat) : option mat :=
  walk up base (fun _ _ j D => if (j <? dofs)%nat then Some (add_col D j (link_term st l j)) else None) (S (r_links r)) l D.
(** SharedKinDynComputations.cpp:568-645. *)
Definition mom_derivative (st : rstate) : option mat :=
  fold_left (fun a l => match a with Some D => link_walk st l D | None => None end) (seq 0 (r_links r)) (Some (fun _ _ => 0)).
End Mom.
