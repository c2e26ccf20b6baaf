(** Model of CoMInBaseExpression.cpp: the centre of mass seen in the base, its Jacobian and its Hessian, and of
    CoMPositionConstraint.cpp.

    Simplifications: as in KinModel.v.  An access out of bounds gives None.  The construction of a Hessian constructs
    others: [hess] has fuel.  iDynTree is an oracle: the centre of mass in the world and its Jacobian. *)
From Coq Require Import Reals List Arith Bool.
From Coquelicot Require Import Coquelicot.
From Verif Require Import Spec SpecRigid SpecBase SpecCom SpecDerivatives SpecQuaternion KinModel KinLib BaseModel.
Import ListNotations.
Local Open Scope R_scope.

Section Com.
Variable r : robot.
Variable b : masses.                                (* getInertia() of the links *)
Variable dofs : nat.
Variable up : nat -> nat -> option (nat * nat).
Variable base : nat.
Notation links := (r_links r).

(** traversal.getChildLinkIndexFromJointIndex(model, joint) (CoMInBaseExpression.cpp:69, 107): the link whose parent joint
    is [j] in the traversal from the base. *)
Definition child_of (j : nat) : option nat :=
  find (fun l => match up base l with Some (_, i) => (i =? j)%nat | None => false end) (seq 0 links).
(** CoMInBaseExpression.cpp:54-57, 84: relativeMass. *)
Definition relative_mass (l : nat) : R := m_of b l / fold_left (fun t l => t + m_of b l) (seq 0 links) 0.
(** CoMInBaseExpression.cpp:85-86. *)
Definition com6 (l : nat) : formula := FVert (FConst 3 1 (fun i _ => vent (m_com b l) i)) (FNull 3 1).
(** CoMInBaseExpression.cpp:96-102: jacobianColumn, constantPart. *)
Definition jacobian_column (l k K : nat) : formula :=
  FVert (FMul (FBlock (adj false l K) 0 0 3 6) (subspace r k K)) (FNull 3 1).
Definition constant_part (l k K : nat) : formula :=
  FAdd (FMul (FMul (cross r false k K) (adj false K l)) (com6 l)) (FMul (adj false K l) (jacobian_column l k K)).
(** CoMInBaseExpression.cpp:111-114: the term added to m_cols[j], J being the child link of joint j. *)
Definition hess_term (l k K j J : nat) : formula :=
  FMul (FMul (FMul (FMul (scalar (relative_mass l)) (FBlock (adj false base J) 0 0 3 6)) (cross r false j J)) (adj false J K)) (constant_part l k K).
(** CoMInBaseExpression.cpp:90-94, 124-127: from link l towards the base, until joint k is found: the link under it and the
    joints seen before. *)
Fixpoint seek (fuel visited k : nat) (seen : list nat) : option (option (nat * list nat)) :=
  match fuel with
  | O => None
  | S n =>
      if (visited =? base)%nat then Some None
      else match up base visited with
           | None => None
           | Some (p, j) => if (j =? k)%nat then Some (Some (visited, seen)) else seek n p k (seen ++ [j])
           end
  end.
(** CoMInBaseExpression.cpp:104-120: from there to the base. *)
Definition hess_add (l k K : nat) (start : nat) (acc : list formula * list nat) : option (list formula * list nat) :=
  walk (up base) base
       (fun v p j acc =>
          match child_of j, nth_error (fst acc) j with
          | Some J, Some old =>
              match put (fst acc) j (FAdd old (hess_term l k K j J)) with Some A => Some (A, snd acc ++ [j]) | None => None end
          | _, _ => None
          end) (fuel r) start acc.
(** CoMInBaseExpression.cpp:79-129: the loop over the links.  m_cols, m_nonZeros, otherJointsInSameBranch. *)
Fixpoint hess_links (k K : nat) (ls : list nat) (acc : list formula * list nat) (others : list nat) : option (list formula * list nat * list nat) :=
  match ls with
  | [] => Some (acc, others)
  | l :: ls' =>
      match seek (fuel r) l k [] with
      | None => None
      | Some None => hess_links k K ls' acc others
      | Some (Some (start, seen)) =>
          match hess_add l k K start acc with None => None | Some acc' => hess_links k K ls' acc' (others ++ seen) end
      end
  end.
(** CoMInBaseExpression.cpp:33-78. *)
Definition hess_direct (k : nat) : option (list formula * list nat * list nat) :=
  match child_of k with None => None | Some K => hess_links k K (seq 0 links) (repeat (FNull 3 1) dofs, []) [] end.

Variable ue : nat -> env -> mat.
Notation Mean := (meaning (vdim dofs) urows (ucols dofs) ue).
Fixpoint all_some {A} (l : list (option A)) : option (list A) :=
  match l with
  | [] => Some []
  | None :: _ => None
  | Some a :: l' => match all_some l' with Some x => Some (a :: x) | None => None end
  end.
Definition find_col (j : nat) (l : list (nat * (env -> mat))) : option (env -> mat) :=
  match find (fun x => (fst x =? j)%nat) l with Some x => Some (snd x) | None => None end.
(** CoMInBaseExpression.cpp:131-138 (the columns taken from the other Hessians), 152-159 evaluate.  Column j is written
    when j is in m_nonZeros, which contains the other joints too. *)
Fixpoint hess (n k : nat) : option (env -> mat) :=
  match n with
  | O => None
  | S n' =>
      match hess_direct k with
      | None => None
      | Some (cols, nz, others) =>
          match forallb (fun j => j <? dofs)%nat others, all_some (map (hess n') others) with
          | true, Some hs =>
              Some (fun rho i j =>
                match find_col j (combine others hs) with
                | Some h => h rho i k
                | None => if existsb (Nat.eqb j) nz then Mean rho (nth j cols (FNull 3 1)) i 0%nat else 0
                end)
          | _, _ => None
          end
      end
  end.
End Com.

(** iDynTree: the centre of mass and its Jacobian, for a base quaternion, a base position and joint positions. *)
Section Values.
Variable dofs : nat.
Variable cpos : vec -> vec -> vec -> v3.
Variable cjac : vec -> vec -> vec -> mat.
(** CoMInBaseExpression.cpp:320-341 CoMInBasePositionEvaluable::evaluate: baseTransform.inverse() * comPosition. *)
Definition com_value (rho : env) : mat :=
  fun i _ => vent (papply (pinv (base_pose (rho v_q) (vec3_of (rho v_p)))) (cpos (rho v_q) (rho v_p) (rho v_s))) i.
(** CoMInBaseExpression.cpp:253-269 CoMInBaseJacobianEvaluable::evaluate: the last columns, turned into the base. *)
Definition com_jac_value (rho : env) : mat :=
  fun i k => sumn 3 (fun a => ment (mtr (qmat (qunit (rho v_q)))) i a * cjac (rho v_q) (rho v_p) (rho v_s) a (6 + k)%nat).
End Values.
