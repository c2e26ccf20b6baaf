(** Model of MomentumInBaseExpression.cpp: the momentum in the base frame as an expression, and the expressions its
    classes return as first and second derivatives.

    Simplifications: an expression is represented by its value at a point (joint positions, joint velocities, base twist):
    the constructors are the same loops, with the values of the operands; frames are indices (as in KinModel.v); the
    caches of ExpressionsServer are the subject of C53; None stands for an access out of bounds, a null pointer or a failed
    assert. *)
From Coq Require Import Reals List Arith Bool.
From Verif Require Import Spec SpecRigid KinModel ComModel.
Import ListNotations.
Local Open Scope R_scope.

Record point := Point { x_s : vec; x_sd : vec; x_b : v6 }.

(** std::vector<Expression> of the size of the degrees of freedom: m_cols[j] = m_cols[j] + v, with the check of the bounds. *)
Definition upd {A} (c : nat -> A) (j : nat) (a : A) : nat -> A := fun k => if (k =? j)%nat then a else c k.
Definition add_to (dofs : nat) (c : nat -> v6) (j : nat) (v : v6) : option (nat -> v6) :=
  if (j <? dofs)%nat then Some (upd c j (v6add (c j) v)) else None.

Section Mib.
Variable r : robot.
Variable dofs : nat.
Variable up : nat -> nat -> option (nat * nat).
Variable base : nat.
Variable inertia : nat -> m6.                       (* linkInertia(l), ExpressionsServer.cpp:598-614 *)
Variable rel : vec -> nat -> nat -> pose.           (* getRelativeTransform *)
Variable vel : point -> nat -> v6.                  (* the value of AbsoluteLeftVelocityEvaluable: KinModel.KAbs, C59 *)
Variable x : point.
Notation links := (r_links r).
Notation child := (child_of r up base).

(** ExpressionsServer.cpp:266-284, 308-326. *)
Definition xadj (f g : nat) : m6 := if (f =? g)%nat then m6I else Adj (rel (x_s x) f g).
Definition xadjw (f g : nat) : m6 := if (f =? g)%nat then m6I else AdjW (rel (x_s x) f g).
(** ExpressionsServer.cpp:466-485. *)
Definition xvel (f : nat) : v6 := if (f =? base)%nat then x_b x else vel x f.
(** ExpressionsServer.cpp:616-632. *)
Definition in_base (l : nat) : m6 := m6mul (xadjw base l) (inertia l).
(** ExpressionsServer.cpp:530-596. *)
Definition axis (j c : nat) : v6 := motion_axis r j c.
(** The loop over the links; None stays None. *)
Definition each_link {A} (step : nat -> A -> option A) (a : A) : option A :=
  fold_left (fun o l => match o with Some a => step l a | None => None end) (seq 0 links) (Some a).
(** The loop from link l to the base; the step is given the joint and its child link. *)
Definition to_base {A} (step : nat -> nat -> A -> option A) (l : nat) (a : A) : option A :=
  walk (up base) base (fun _ _ j a => match child j with Some c => step j c a | None => None end) (fuel r) l a.

(** MomentumInBaseExpression.cpp:52-69: m_thisExpression. *)
Definition mib_value : v6 :=
  fold_left (fun h l => if (l =? base)%nat then h else v6add h (m6v (in_base l) (xvel l))) (seq 0 links) (m6v (inertia base) (x_b x)).

(** MomentumInBaseExpression.cpp:156-197: m_cols of MomentumInBaseJointsDerivativeEvaluable.  m_jointsInfo holds the two
    products that depend on the joint only. *)
Definition mib_joint_cols : option (nat -> v6) :=
  each_link (fun l cols =>
    let linkMomentum := m6v (inertia l) (xvel l) in
    to_base (fun j c cols =>
      let motionVectorTimesChildVelocity := m6v (adx (axis j c)) (xvel c) in
      let adjointWrenchTimesMotionVector := m6mul (xadjw base c) (adw (axis j c)) in
      let adjointWrenchDerivative := m6v (m6mul adjointWrenchTimesMotionVector (xadjw c l)) linkMomentum in
      let velocityDerivative := m6v (m6mul (in_base l) (xadj l c)) motionVectorTimesChildVelocity in
      if (j <? dofs)%nat then Some (upd cols j (v6add (v6add (cols j) adjointWrenchDerivative) (v6opp velocityDerivative))) else None) l cols)
  (fun _ => v60).

(** MomentumInBaseExpression.cpp:342-360: m_cols of MomentumInBaseJointsVelocityDerivativeEvaluable. *)
Definition mib_rate_cols : option (nat -> v6) :=
  each_link (fun l cols => to_base (fun j c cols => add_to dofs cols j (m6v (m6mul (in_base l) (xadj l c)) (axis j c))) l cols) (fun _ => v60).

(** ExpressionsServer.cpp:93-97: compositeRigidBodyInertia(). *)
Definition crbi : m6 := fold_left (fun M l => m6add M (m6mul (in_base l) (xadj l base))) (seq 0 links) m60.
(** MomentumInBaseExpression.cpp:264: MomentumInBaseBaseTwistDerivativeEvaluable, for a Jacobian of the base twist (6 rows). *)
Definition mib_twist (J : mat) : mat := fun i k => sumn 6 (fun a => m6ent crbi i a * J a k).

(** MomentumInBaseExpression.cpp:434-465: adjointDerivatives. *)
Definition mib_twist_blocks : option (nat -> m6) :=
  each_link (fun l A => to_base (fun j c A =>
      let first := m6mul (m6mul (m6mul (m6mul (xadjw base c) (adw (axis j c))) (xadjw c l)) (inertia l)) (xadj l base) in
      let second := m6mul (m6mul (m6mul (m6mul (xadjw base l) (inertia l)) (xadj l c)) (adx (axis j c))) (xadj c base) in
      if (j <? dofs)%nat then Some (upd A j (m6add (m6add (A j) first) (m6neg second))) else None) l A)
  (fun _ => m60).
(** MomentumInBaseExpression.cpp:467-469: m_cols of MomentumInBaseBaseTwistJointsDerivativeEvaluable; the column of the Jacobian
    is a vector of 6 entries. *)
Definition mib_twist_joint_cols (jcol : v6) : option (nat -> v6) :=
  match mib_twist_blocks with Some A => Some (fun j => if (j <? dofs)%nat then m6v (A j) jcol else v60) | None => None end.

(** linkVel.getColumnDerivative(0, jointsPosition): AbsoluteVelocityExpression.cpp:79-95, 121-151 (the values of the columns;
    zero for the base, whose velocity is the base twist). *)
Definition vel_cols (f : nat) : option (nat -> v6) :=
  if (f =? base)%nat then Some (fun _ => v60)
  else walk (up base) base (fun v _ j cols => if (j <? dofs)%nat then Some (upd cols j (m6v (m6mul (xadj f v) (m6neg (adx (axis j v)))) (xvel v))) else None)
         (fuel r) f (fun _ => v60).

(** MomentumInBaseExpression.cpp:546-605: the loop over the links of MomentumInBaseJointsDoubleDerivativeEvaluable for the
    column k, K being the child link of joint k. *)
Record dd_state := DD { dd_cols : nat -> v6; dd_column : v6; dd_nonzero : list nat; dd_others : list nat }.
Definition dd_link (k K l : nat) (a : dd_state) : option dd_state :=
  match seek up base (fuel r) l k [] with
  | None => None
  | Some None => Some a
  | Some (Some (start, visitedJoints)) =>
      let thisSWrench := adw (axis k K) in
      let inertiaInC := m6mul (xadjw K l) (inertia l) in
      let motionSubspaceInC := m6mul (m6mul (xadj l K) (adx (axis k K))) (xadj K l) in
      match vel_cols l with
      | None => None
      | Some linkVelD =>
          let column := v6add (v6add (dd_column a) (m6v (m6mul thisSWrench inertiaInC) (xvel l))) (m6v inertiaInC (linkVelD k)) in
          match to_base (fun j _ (cz : (nat -> v6) * list nat) =>
                  let t := m6v (m6add (m6mul thisSWrench inertiaInC) (m6neg (m6mul inertiaInC motionSubspaceInC))) (linkVelD j) in
                  match add_to dofs (fst cz) j t with Some c => Some (c, snd cz ++ [j]) | None => None end) start (dd_cols a, dd_nonzero a) with
          | None => None
          | Some (cols, nz) => Some (DD cols column nz (dd_others a ++ visitedJoints))
          end
      end
  end.
(** MomentumInBaseExpression.cpp:607-622: the columns written in the loop, once for each element of m_nonZeros. *)
Definition dd_direct (k : nat) : option (nat -> v6) * list nat :=
  match child k with
  | None => (None, [])
  | Some K =>
      match each_link (dd_link k K) (DD (fun _ => v60) v60 [] []) with
      | None => (None, [])
      | Some a =>
          (fold_left (fun o j => match o, child j with
             | Some cols, Some J =>
                 let b_X_c_derivative := m6mul (m6mul (xadjw base J) (adw (axis j J))) (xadjw J K) in
                 Some (upd cols j (v6add (m6v b_X_c_derivative (dd_column a)) (m6v (xadjw base K) (cols j))))
             | _, _ => None
             end) (nodup Nat.eq_dec (dd_nonzero a)) (Some (dd_cols a)), dd_others a)
      end
  end.
(** MomentumInBaseExpression.cpp:624-630: the columns of the joints further from the base are taken from their own double
    derivatives (momentumInBaseJointsDoubleDerivative constructs them: n bounds the nesting of the constructors). *)
Fixpoint mib_double (n k : nat) : option (nat -> v6) :=
  match n with
  | O => None
  | S n' =>
      match dd_direct k with
      | (Some cols, others) =>
          fold_left (fun o j => match o, mib_double n' j with
            | Some c, Some c' => if (j <? dofs)%nat then Some (upd c j (c' k)) else None
            | _, _ => None
            end) (nodup Nat.eq_dec others) (Some cols)
      | (None, _) => None
      end
  end.
(** evaluate(): the values of the columns. *)
Definition as_matrix (cols : nat -> v6) : mat := fun i j => v6ent (cols j) i.
End Mib.
