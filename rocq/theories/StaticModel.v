(** Model of the derivative of the static torques with respect to the joints (src/private/SharedKinDynComputations.cpp). *)
From Coq Require Import Reals List Arith Bool.
From Verif Require Import Spec SpecQuaternion SpecRigid SpecBase KinModel BaseProofs MomModel.
Import ListNotations.
Local Open Scope R_scope.

Section Static.
Variable r : robot.
Variable dofs : nat.                                (* jointsInfos.size() = getNrOfDegreesOfFreedom() *)
Variable up : nat -> option (nat * nat).            (* m_data->traversal: parent link and parent joint *)
Variable order : list nat.                          (* m_data->traversal.getLink(0), getLink(1), ... *)
Variable base : nat.                                (* model.getLinkIndex(kinDyn.getFloatingBase()) *)
Variable child : nat -> nat.                        (* jointsInfos[j].childIndex (:97) *)
Variable inertia : nat -> m6.                       (* model.getLink(l)->getInertia() *)
Variable rel : nat -> nat -> pose.                  (* kinDyn.getRelativeTransform, in the current state *)
Variable acc : nat -> v6.                           (* invDynLinkProperAccs (:171-177 ForwardAccKinematics) *)
Variable wrench : nat -> v6.                        (* linkStaticWrenches (:179-186 RNEADynamicPhase) *)

(** childrenForceDerivatives[link][joint]. *)
Definition table := nat -> nat -> v6.
Definition put2 (D : table) (l z : nat) (a : v6) : table := fun m k => if ((m =? l) && (k =? z))%nat then a else D m k.

(** :132-136 childStaticForceDerivative, :138-141 motionVectorTimesChildAcceleration. *)
Definition child_force (j : nat) : v6 := m6v (adw (info_axis r child j)) (wrench (child j)).
Definition axis_times_acceleration (j : nat) : v6 := m6v (adx (info_axis r child j)) (acc (child j)).

(** :716-726, one joint z visited from link l, whose parent is p. *)
Definition visit (l p z : nat) (D : table) : table :=
  let D := put2 D l z (v6add (D l z) (v6opp (m6v (inertia l) (m6v (Adj (rel l (child z))) (axis_times_acceleration z))))) in
  if (p =? base)%nat then D else put2 D p z (v6add (D p z) (m6v (AdjW (rel p l)) (D l z))).
(** :728-739, link a above the parent of link l, whose joint is j. *)
Definition raise (l j a : nat) (D : table) : table := put2 D a j (v6add (D a j) (m6v (AdjW (rel a l)) (D l j))).
(** :695-741, one link.  None: a null pointer, or an index out of the bounds of jointsInfos or childrenForceDerivatives. *)
Definition static_link (l : nat) (D : table) : option table :=
  match up l with
  | None => None
  | Some (p, j) =>
      if (j <? dofs)%nat then
        let D := put2 D l j (v6add (D l j) (child_force j)) in
        match walk up base (fun _ _ z D => if (z <? dofs)%nat then Some (visit l p z D) else None) (S (r_links r)) l D with
        | None => None
        | Some D =>
            if (p =? base)%nat then Some D
            else match up p with
                 | None => Some D
                 | Some (q, _) => walk up base (fun a _ _ D => Some (raise l j a D)) (S (r_links r)) q D
                 end
        end
      else None
  end.
(** :143-145 (the reset) and the loop from the last visited link to the second one (:695). *)
Definition static_table : option table :=
  fold_left (fun o l => match o with Some D => static_link l D | None => None end) (rev (tl order)) (Some (fun _ _ => v60)).
(** :743-757: staticTorquesDerivatives. *)
Definition static_derivative : option mat :=
  match static_table with Some D => Some (fun j z => v6dot (info_axis r child j) (D (child j) z)) | None => None end.
(** jointTorques() of generalizedStaticTorques: what RNEADynamicPhase computes from the wrenches. *)
Definition static_torque (j : nat) : R := v6dot (info_axis r child j) (wrench (child j)).
End Static.
