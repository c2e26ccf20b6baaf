(** Model of the kinematic expressions of the planner: what the constructors of the expressions write, with the
    formulas of SpecDerivatives.v, and what evaluate() and getColumnDerivative() return.

    AdjointTransformExpression.cpp, RelativeJacobianExpression.cpp, RelativePositionExpression.cpp,
    RelativeQuaternionExpression.cpp, RelativeVelocityExpression.cpp, AbsoluteVelocityExpression.cpp,
    QuaternionExpressions.cpp and the functions of ExpressionsServer.cpp that create them.

    Simplifications: frames are indices, the link l being the frame l (names and the maps of ExpressionsServer are the
    subject of C53); a joint index is the index of its degree of freedom, an index that is not smaller than the number
    of degrees of freedom is an access out of bounds and gives None; a failed assert gives None.  iDynTree is an
    oracle: relative transforms, Jacobians, frame velocities, quaternion of a rotation. *)
From Coq Require Import Reals List Arith Bool.
From Coq Require Cantor.
From Coquelicot Require Import Coquelicot.
From Verif Require Import Spec SpecRigid SpecDerivatives.
Import ListNotations.
Local Open Scope R_scope.

(** std::vector::operator[] on the left of an assignment. *)
Fixpoint put {A} (l : list A) (i : nat) (a : A) : option (list A) :=
  match l, i with
  | [], _ => None
  | _ :: r, O => Some (a :: r)
  | x :: r, S i' => match put r i' a with Some r' => Some (x :: r') | None => None end
  end.

(** while (visitedLink != baseLink) { jointPtr = traversal.getParentJointFromLinkIndex(visitedLink); ...
    visitedLink = traversal.getParentLinkFromLinkIndex(visitedLink)->getIndex(); } (for instance
    AdjointTransformExpression.cpp:260-275).  [up l] is the parent of l and the joint between them, None for the base
    of the traversal (a null pointer). *)
Fixpoint walk {A} (up : nat -> option (nat * nat)) (b : nat) (step : nat -> nat -> nat -> A -> option A) (fuel visited : nat) (acc : A) : option A :=
  match fuel with
  | O => None
  | S n =>
      if Nat.eqb visited b then Some acc
      else match up visited with
           | None => None
           | Some (p, j) => match step visited p j acc with None => None | Some acc' => walk up b step n p acc' end
           end
  end.

(** The kinds of expressions.  [w] tells the transforms of wrenches from the transforms of twists. *)
Inductive kin :=
| KAdj (w : bool) (f g : nat)            (* adjointTransform, adjointTransformWrench *)
| KAdjD (w : bool) (f g c : nat)         (* adjointTransformJointsDerivative, adjointTransformWrenchJointsDerivative *)
| KJac (f g : nat)                       (* relativeLeftJacobian *)
| KPos (f g : nat)                       (* relativePosition *)
| KQuat (f g : nat)                      (* relativeQuaternion *)
| KVel (f g : nat)                       (* relativeVelocity *)
| KAbs (f : nat)                         (* absoluteVelocity *)
| KAbsD (f : nat)                        (* absoluteVelocityJointsDerivative *)
| KOther (n : nat)                       (* the quaternion error of frame n (BaseModel.v) *)
| KCom (n : nat).                        (* comInBase, its Jacobian, the columns of its Hessian (ComModel.v) *)
(** Their numbers. *)
Definition quad (t a b c : nat) : nat := Cantor.to_nat (t, Cantor.to_nat (a, Cantor.to_nat (b, c))).
Definition code (k : kin) : nat :=
  match k with
  | KAdj false f g => quad 0 f g 0
  | KAdj true f g => quad 1 f g 0
  | KAdjD false f g c => quad 2 f g c
  | KAdjD true f g c => quad 3 f g c
  | KJac f g => quad 4 f g 0
  | KPos f g => quad 5 f g 0
  | KQuat f g => quad 6 f g 0
  | KVel f g => quad 7 f g 0
  | KAbs f => quad 8 f 0 0
  | KAbsD f => quad 9 f 0 0
  | KOther n => quad 10 n 0 0
  | KCom n => quad 11 n 0 0
  end.
Definition decode (n : nat) : kin :=
  let (t, x) := Cantor.of_nat n in let (a, y) := Cantor.of_nat x in let (b, c) := Cantor.of_nat y in
  match t with
  | 0 => KAdj false a b | 1 => KAdj true a b | 2 => KAdjD false a b c | 3 => KAdjD true a b c
  | 4 => KJac a b | 5 => KPos a b | 6 => KQuat a b | 7 => KVel a b | 8 => KAbs a | 9 => KAbsD a | 11 => KCom a | _ => KOther a
  end%nat.
Definition leaf (k : kin) : formula := FUser (code k).

(** The variables: ExpressionsServer.cpp:32-45 and 78-80 (s, s_dot, base quaternion, base position, base linear
    velocity, base quaternion velocity), and the base twist when it is used as a variable. *)
Definition v_s := 0%nat.
Definition v_sdot := 1%nat.
Definition v_twist := 6%nat.

Section Kin.
Variable r : robot.
Variable dofs : nat.                                (* model.getNrOfDOFs() = jointsPosition().rows() *)
Variable up : nat -> nat -> option (nat * nat).     (* computeFullTreeTraversal(traversal, base) *)
Variable base : nat.                                (* getFloatingBase() *)
Variable bt : formula.                              (* the base twist given to absoluteVelocity *)
Variable bt_dep : nat -> bool.                      (* its isDependentFrom *)
Notation fl := (frame_link r).

Definition vdim (u : nat) : nat := match u with 0 | 1 => dofs | 2 | 5 => 4 | 3 | 4 => 3 | 6 => 6 | _ => 1 end%nat.
(** The sizes given to the constructors of DefaultEvaluable. *)
Definition krows (k : kin) : nat := match k with KPos _ _ | KCom _ => 3 | KQuat _ _ | KOther _ => 4 | _ => 6 end%nat.
Definition kcols (k : kin) : nat := match k with KAdj _ _ _ => 6 | KAdjD _ _ _ _ | KJac _ _ | KAbsD _ | KCom (S _) => dofs | _ => 1 end%nat.
Definition urows (n : nat) : nat := krows (decode n).
Definition ucols (n : nat) : nat := kcols (decode n).

(** ** What ExpressionsServer returns *)
(** ExpressionsServer.cpp:266-284, 308-326. *)
Definition adj (w : bool) (f g : nat) : formula := if (f =? g)%nat then FIdent 6 else leaf (KAdj w f g).
(** ExpressionsServer.cpp:286-306, 328-348. *)
Definition adjD (w : bool) (f g c : nat) : formula := if (f =? g)%nat then FNull 6 dofs else leaf (KAdjD w f g c).
(** ExpressionsServer.cpp:350-368. *)
Definition relpos (f g : nat) : formula := if (f =? g)%nat then FNull 3 1 else leaf (KPos f g).
(** ExpressionsServer.cpp:370-388. *)
Definition relquat (f g : nat) : formula := if (f =? g)%nat then FCol (FIdent 4) 0 else leaf (KQuat f g).
(** ExpressionsServer.cpp:390-408. *)
Definition relrot (f g : nat) : formula := if (f =? g)%nat then FIdent 3 else FBlock (adj false f g) 0 0 3 3.
(** ExpressionsServer.cpp:426-444. *)
Definition reljac (f g : nat) : formula := if (f =? g)%nat then FNull 6 dofs else leaf (KJac f g).
(** ExpressionsServer.cpp:446-464. *)
Definition relvel (f g : nat) : formula := if (f =? g)%nat then FNull 6 1 else leaf (KVel f g).
(** ExpressionsServer.cpp:466-485. *)
Definition absvel (f : nat) : formula := if (f =? base)%nat then bt else leaf (KAbs f).
(** ExpressionsServer.cpp:492-512. *)
Definition absvelD (f : nat) : formula := if (f =? base)%nat then FNull 6 dofs else leaf (KAbsD f).

Definition no_joint : joint := Joint 0 0 (fun _ => pid) v60 v60.
(** ExpressionsServer.cpp:530-550: motionSubSpaceVector(joint, parentLink, childLink).  The argument parentLink only
    selects the orientation; childLink does. *)
Definition motion_axis (j c : nat) : v6 := axis_of (nth j (r_joints r) no_joint) c.
Definition subspace (j c : nat) : formula := FConst 6 1 (fun i _ => v6ent (motion_axis j c) i).
(** ExpressionsServer.cpp:552-596: motionSubSpaceAsCrossProduct, motionSubSpaceAsCrossProductWrench. *)
Definition cross (w : bool) (j c : nat) : formula :=
  FConst 6 6 (m6ent (if w then adw (motion_axis j c) else adx (motion_axis j c))).

Definition fuel : nat := S (r_links r).

(** ** AdjointTransformDerivativeEvaluable and AdjointTransformWrenchDerivativeEvaluable *)
(** AdjointTransformExpression.cpp:235-275, 361-401: jointsDerivative and m_nonZeros. *)
Definition adjD_blocks (w : bool) (f g : nat) : option (list formula * list nat) :=
  match up (fl f) (fl g) with
  | None => None
  | Some (p, j) =>
      match put (repeat (FNull 6 6) dofs) j (FMul (adj w f g) (cross w j (fl g))) with
      | None => None
      | Some A =>
          walk (up (fl f)) (fl f)
               (fun v p j acc =>
                  match put (fst acc) j (FMul (FMul (adj w f v) (cross w j v)) (adj w v g)) with
                  | Some A' => Some (A', snd acc ++ [j]) | None => None
                  end) fuel p (A, [j])
      end
  end.
(** AdjointTransformExpression.cpp:237, 276-278 and 363, 402-404: m_cols. *)
Definition adjD_cols (w : bool) (f g c : nat) : option (list formula * list nat) :=
  if (fl f =? fl g)%nat then Some (repeat (FNull 6 1) dofs, [])
  else match adjD_blocks w f g with None => None | Some (A, nz) => Some (map (fun X => FCol X c) A, nz) end.

(** ** RelativeLeftJacobianEvaluable *)
(** RelativeJacobianExpression.cpp:59-81: m_columns. *)
Definition jac_cols (f g : nat) : option (list formula) :=
  walk (up (fl f)) (fl f) (fun v p j A => put A j (FMul (adj false g v) (subspace j v))) fuel (fl g) (repeat (FNull 6 1) dofs).

(** ** AbsoluteLeftVelocityJointsDerivativeEvaluable *)
(** AbsoluteVelocityExpression.cpp:121-151: m_cols and m_nonZeros. *)
Definition absD_cols (f : nat) : option (list formula * list nat) :=
  walk (up (fl base)) (fl base)
       (fun v p j acc =>
          match put (fst acc) j (FMul (FMul (adj false f v) (FNeg (cross false j v))) (absvel v)) with
          | Some A' => Some (A', snd acc ++ [j]) | None => None
          end) fuel (fl f) (repeat (FNull 6 1) dofs, []).

(** AbsoluteVelocityExpression.cpp:51-52: m_thisExpression. *)
Definition abs_this (f : nat) : formula := FAdd (relvel base f) (FMul (adj false f base) bt).
(** RelativeVelocityExpression.cpp:50-51: m_thisExpression. *)
Definition vel_this (f g : nat) : formula := FMul (reljac f g) (FVar v_sdot).
(** RelativePositionExpression.cpp:51-52: m_derivative. *)
Definition pos_derivative (f g : nat) : formula := FMul (relrot f g) (FBlock (reljac f g) 0 0 3 dofs).
(** QuaternionExpressions.cpp:31-39: G_Expression. *)
Definition G_formula (q : formula) : formula :=
  let im := FBlock q 1 0 3 1 in
  FHorz (FNeg im) (FAdd (FMul (FIdent 3) (FElem q 0 0)) (FSkew (FNeg im))).
(** RelativeQuaternionExpression.cpp:53, 84-88.  thisQuaternion is a new object with the same meaning. *)
Definition scalar (x : R) : formula := FConst 1 1 (fun _ _ => x).
Definition quat_derivative (f g : nat) : formula :=
  FMul (FMul (scalar (1 / 2)) (FTransp (G_formula (leaf (KQuat f g))))) (FBlock (reljac f g) 3 0 3 dofs).

(** ** getColumnDerivative, getNewColumnDerivative *)
Definition the_cols (o : option (list formula * list nat)) : option (list formula) := option_map fst o.
Definition nth_col (o : option (list formula)) (c : nat) : option formula := match o with Some l => nth_error l c | None => None end.
(** Column [c] with respect to variable [v].  [FDeriv] stands for a call to getColumnDerivative.
    AdjointTransformExpression.cpp:100-112, 193-205, 314-326, 440-452; RelativeJacobianExpression.cpp:107-120;
    RelativePositionExpression.cpp:74-90; RelativeQuaternionExpression.cpp:75-93; RelativeVelocityExpression.cpp:75-79;
    AbsoluteVelocityExpression.cpp:79-95, 184-188. *)
Definition derivative (k : kin) (c v : nat) : option formula :=
  match k with
  | KAdj w f g => Some (if (negb (fl f =? fl g)%nat && (v =? v_s)%nat)%bool then adjD w f g c else FNull 6 (vdim v))
  | KAdjD w f g c0 =>
      match adjD_cols w f g c0 with
      | None => None
      | Some (A, nz) =>
          if (negb (length nz =? 0)%nat && (v =? v_s)%nat)%bool
          then option_map (fun X => FDeriv X 0 v) (nth_error A c) else Some (FNull 6 (vdim v))
      end
  | KJac f g => if (v =? v_s)%nat then option_map (fun X => FDeriv X 0 v) (nth_col (jac_cols f g) c) else Some (FNull 6 (vdim v))
  | KPos f g => Some (if (v =? v_s)%nat then pos_derivative f g else FNull 3 (vdim v))
  | KQuat f g => Some (if (v =? v_s)%nat then quat_derivative f g else FNull 4 (vdim v))
  | KVel f g => Some (FDeriv (vel_this f g) 0 v)
  | KAbs f =>
      Some (if (v =? v_s)%nat then absvelD f
            else if (v =? v_sdot)%nat then reljac base f
            else if bt_dep v then FMul (adj false f base) (FDeriv bt 0 v)
            else FNull 6 (vdim v))
  | KAbsD f => option_map (fun X => FDeriv X 0 v) (nth_col (the_cols (absD_cols f)) c)
  | KOther _ | KCom _ => None
  end.

(** ** evaluate() *)
(** The buffer starts at zero (Evaluable.h:151) and only the columns in m_nonZeros are written
    (AdjointTransformExpression.cpp:294-301, 420-427; AbsoluteVelocityExpression.cpp:163-170). *)
Definition fill (value : formula -> mat) (cols : list formula) (nz : list nat) : mat :=
  fold_left (fun buf j => fun i k => if (k =? j)%nat then value (nth j cols (FNull 6 1)) i 0%nat else buf i k) nz (fun _ _ => 0).

(** iDynTree.  [rel s f g]: getRelativeTransform; [jac s f g i]: column i of getRelativeJacobian (body fixed);
    [fvel rho f]: getFrameVel (body fixed) in the state rho; [quat]: asQuaternion. *)
Variable rel : vec -> nat -> nat -> pose.
Variable jac : vec -> nat -> nat -> nat -> v6.
Variable fvel : env -> nat -> v6.
Variable quat : m3 -> vec.

Definition AdjOf (w : bool) (H : pose) : m6 := if w then AdjW H else Adj H.
(** The expressions evaluated by iDynTree.
    AdjointTransformExpression.cpp:70-90 and 163-184 (a constant when the two frames are on the same link);
    RelativeJacobianExpression.cpp:86-97; RelativePositionExpression.cpp:57-64; RelativeQuaternionExpression.cpp:58-65;
    RelativeVelocityExpression.cpp:56-66. *)
Definition val0 (k : kin) (rho : env) : mat :=
  let s := rho v_s in
  match k with
  | KAdj w f g => m6ent (AdjOf w (if (fl f =? fl g)%nat then pmul (pinv (frame_offset r f)) (frame_offset r g) else rel s f g))
  | KJac f g => fun i j => v6ent (jac s f g j) i
  | KPos f g => fun i _ => vent (pos (rel s f g)) i
  | KQuat f g => fun i _ => quat (rot (rel s f g)) i
  | KVel f g => fun i _ => v6ent (v6add (fvel rho g) (v6opp (m6v (Adj (rel s g f)) (fvel rho f)))) i
  | _ => fun _ _ => 0
  end.
Definition ueval0 (n : nat) : env -> mat := val0 (decode n).
Notation meaning0 := (meaning vdim urows ucols ueval0).
(** The expressions that evaluate the previous ones (AbsoluteVelocityExpression.cpp:61-66 for KAbs). *)
Definition filled (value : formula -> mat) (o : option (list formula * list nat)) : mat :=
  match o with Some (A, nz) => fill value A nz | None => fun _ _ => 0 end.
Definition val1 (k : kin) (rho : env) : mat :=
  match k with
  | KAdjD w f g c => filled (meaning0 rho) (adjD_cols w f g c)
  | KAbs f => meaning0 rho (abs_this f)
  | _ => val0 k rho
  end.
Definition ueval1 (n : nat) : env -> mat := val1 (decode n).
Notation meaning1 := (meaning vdim urows ucols ueval1).
Definition val (k : kin) (rho : env) : mat :=
  match k with
  | KAbsD f => filled (meaning1 rho) (absD_cols f)
  | _ => val1 k rho
  end.
Definition ueval (n : nat) : env -> mat := val (decode n).
End Kin.
