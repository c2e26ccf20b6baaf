(** Model of getColumnDerivative of levi on the expressions of the constraints, which contain kinematic expressions
    (KinModel.v).  Unlike [FDeriv], whose meaning is the true derivative, [dcol] uses for every kinematic expression the
    derivative that its class returns, right or wrong.

    Simplifications: the terms levi knows to be null are kept (they are multiplied by a null matrix); the
    derivative of a product of matrices is written as the sum over the columns that MatrixProductDerivative computes, hence
    its own derivative is that of this sum; an expression without kinematic expressions is derived by levi (C45), hence [FDeriv]; only the operators the constraints use are
    considered, for the others the result is None. *)
From Coq Require Import Reals List Arith Bool.
From Coquelicot Require Import Coquelicot.
From Verif Require Import Spec SpecRigid SpecDerivatives KinModel KinLib.
Import ListNotations.
Local Open Scope R_scope.

Section Sym.
Variable dofs : nat.
(** What getColumnDerivative of a kinematic expression returns. *)
Variable du : kin -> nat -> nat -> option formula.
Notation FR := (frows (vdim dofs) urows (ucols dofs)).
Notation FC := (fcols (vdim dofs) urows (ucols dofs)).

Definition scalar_size (F : formula) : bool := ((FR F =? 1) && (FC F =? 1))%nat.
Definition both (op : formula -> formula -> formula) (a b : option formula) : option formula :=
  match a, b with Some x, Some y => Some (op x y) | _, _ => None end.
Fixpoint all_some (l : list (option formula)) : option (list formula) :=
  match l with
  | [] => Some []
  | o :: l => match o, all_some l with Some X, Some Y => Some (X :: Y) | _, _ => None end
  end.
(** OperatorsEvaluables.h:868-900 m_col0, m_col1, m_col2: column c of the skew-symmetric matrix of x is skew_column c times x. *)
Definition skew_column (c i k : nat) : R :=
  match c, i, k with
  | 0%nat, 1%nat, 2%nat => 1 | 0%nat, 2%nat, 1%nat => -1
  | 1%nat, 0%nat, 2%nat => -1 | 1%nat, 2%nat, 0%nat => 1
  | 2%nat, 0%nat, 1%nat => 1 | 2%nat, 1%nat, 0%nat => -1
  | _, _, _ => 0
  end.
(** OperatorsEvaluables.h:192-219 (sum), 273-300 (difference), 347-354 (sign), 497-635 and 384-450 (product: by a scalar, of two
    matrices), 922-945 (skew), 1038-1049 (vee), 986-995 (transpose: row j of the derivative of column c is the derivative of entry (c, j), taken here as a row of
    the derivative of column j), AdvancedConstructors.h:309-316 (two matrices side by side), AccessorEvaluables.h (row, column, element, block). *)
Fixpoint dcol (F : formula) (c v : nat) {struct F} : option formula :=
  if users (fun _ => false) F then Some (FDeriv F c v)
  else match F with
  | FUser n => du (decode n) c v
  | FAdd A B => both FAdd (dcol A c v) (dcol B c v)
  | FSub A B => both FSub (dcol A c v) (dcol B c v)
  | FNeg A => option_map FNeg (dcol A c v)
  | FSkew A => option_map (FMul (FConst 3 3 (skew_column c))) (dcol A 0 v)
  | FVee A => option_map FByRows (all_some (map (fun p => option_map (fun X => FRow X (fst p)) (dcol A (snd p) v)) [(2, 1); (0, 2); (1, 0)]%nat))
  | FTransp A => option_map FByRows (all_some (map (fun j => option_map (fun X => FRow X c) (dcol A j v)) (seq 0 (FC A))))
  | FHorz A B => if (c <? FC A)%nat then dcol A c v else dcol B (c - FC A) v
  | FMul A B =>
      if scalar_size A then both FAdd (option_map (FMul A) (dcol B c v)) (option_map (FMul (FCol B c)) (dcol A 0 v))
      else if scalar_size B then both FAdd (option_map (FMul B) (dcol A c v)) (option_map (FMul (FCol A c)) (dcol B 0 v))
      else fold_left (fun acc l => both FAdd acc (option_map (FMul (FElem B l c)) (dcol A l v))) (seq 0 (FC A)) (option_map (FMul A) (dcol B c v))
  | FBlock A i0 j0 n m => option_map (fun X => FBlock X i0 0 n (vdim dofs v)) (dcol A (j0 + c) v)
  | FRow A i => option_map (fun X => FRow X i) (dcol A c v)
  | FCol A k => dcol A k v
  | FElem A i j => option_map (fun X => FRow X i) (dcol A j v)
  | _ => None
  end.
End Sym.

Section Deep.
Variable r : robot.
Variable dofs : nat.
Variable up : nat -> nat -> option (nat * nat).
Variable base : nat.
Variable bt : formula.
Variable bt_dep : nat -> bool.
(** [derivative] of KinModel.v with the calls to getColumnDerivative resolved: the columns of the derivatives of the
    adjoint transforms (AdjointTransformExpression.cpp:314-326, 440-452) and of the relative Jacobians
    (RelativeJacobianExpression.cpp:107-120) are products of adjoint transforms, whose derivatives are written by hand. *)
Definition hand (k : kin) (c v : nat) : option formula :=
  match k with
  | KAdj _ _ _ | KPos _ _ => derivative r dofs up base bt bt_dep k c v
  | _ => None
  end.
Definition deep (k : kin) (c v : nat) : option formula :=
  match k with
  | KAdjD w f g c0 =>
      match adjD_cols r dofs up w f g c0 with
      | None => None
      | Some (A, nz) =>
          if (negb (length nz =? 0)%nat && (v =? v_s)%nat)%bool
          then match nth_error A c with Some X => dcol dofs hand X 0 v | None => None end else Some (FNull 6 (vdim dofs v))
      end
  | KJac f g =>
      if (v =? v_s)%nat then match nth_col (jac_cols r dofs up f g) c with Some X => dcol dofs hand X 0 v | None => None end
      else Some (FNull 6 (vdim dofs v))
  | _ => hand k c v
  end.
End Deep.
