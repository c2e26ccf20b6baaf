(** Model of FillDefaultInitialState, src/Utilities.cpp:16-116. *)
From Coq Require Import Reals List Arith Bool Lra Lia.
From Verif Require Import Spec SpecState SpecGeometry SpecUtilities RectFoot GroundModel.
Import ListNotations.
Local Open Scope R_scope.

Definition transpose3 (m : M3) : M3 :=
  let '((a,b,c),(d,e,f),(g,h,i)) := m in ((a,d,g),(b,e,h),(c,f,i)).
(** iDynTree::Transform::inverse (external). *)
Definition tinverse (t : transform) : transform :=
  (transpose3 (fst t), scale3 (-1) (mul3 (transpose3 (fst t)) (snd t))).

(** What iDynTree's model and KinDynComputations provide (external): the frame of
    the left foot in its link (made the floating base), and, relative to that
    link, the right foot frame, the base frame and the centre of mass as functions
    of the joints; the momentum; the masses of the links. *)
Record fk := mkFk {
  linkTleft : transform; linkTright : list R -> transform; linkTbase : list R -> transform;
  linkCoM : list R -> V3; fkMomentum : transform -> list R -> V6; linkMasses : list R }.

Inductive fill_outcome :=
| FillOk (s : state M3)        (* returns true *)
| FillFalse                    (* returns false; the state may be partially written *)
| FillNaN                      (* returns true, forces are not numbers *)
| FillUndefined.               (* out of bounds access *)

(** Utilities.cpp:85-89: normalForce/(1 + |dl|/|dr|); IEEE: dl/0 is infinite for dl <> 0,
    which gives 0, and not a number for dl = 0. *)
Definition leftShare (F dl dr : R) : option R :=
  if Req_EM_T dr 0 then (if Req_EM_T dl 0 then None else Some 0)
  else Some (F / (1 + Rabs dl / Rabs dr)).

(** "pointForce = forces[i]" for i below the number of points; [None]: out of bounds. *)
Fixpoint give_forces (ps : list V3) (fs : list V3) : option (list point_state) :=
  match ps with
  | [] => Some []
  | p :: ps' => match fs with [] => None | f :: fs' => option_map (cons (mkPointState f p)) (give_forces ps' fs') end
  end.

Section Fill.
Variable qrsolve : nat -> mat -> vec -> vec.
Variable k : fk.
Variable lp rp : list V3.

(** Utilities.cpp:53-54: left frame of the robot placed at the world origin. *)
Definition worldLink : transform := tinverse (linkTleft k).
Definition worldLeft : transform := compose worldLink (linkTleft k).
Definition worldRight (j : list R) : transform := compose worldLink (linkTright k j).
Definition worldBase (j : list R) : transform := compose worldLink (linkTbase k j).
Definition worldCoM (j : list R) : V3 := tapply worldLink (linkCoM k j).
(** Utilities.cpp:73-78 *)
Definition totalMass : R := fold_left Rplus (linkMasses k) 0.
Definition normalForce : R := totalMass * (981/100).

(** Utilities.cpp:81-97: the two wrenches (force, torque). *)
Definition wrenches (com l r : V3) : option ((V3 * V3) * (V3 * V3)) :=
  match leftShare normalForce (py com - py l) (py com - py r) with
  | None => None
  | Some fl =>
    let fr := normalForce - fl in
    Some (((0, 0, fl), (0, - fl * (px com - px l), 0)), ((0, 0, fr), (0, - fr * (px com - px r), 0)))
  end.

(** The state after the part before the forces; the old content only survives in
    the forces of points (resize keeps them), overwritten below. *)
Definition filled (j : list R) (ls rs : list point_state) : state M3 :=
  {| leftContactPointsState := ls; rightContactPointsState := rs;
     momentumInCoM := fkMomentum k worldLink j; comPosition := worldCoM j;
     basePosition := snd (worldBase j); baseRotation := fst (worldBase j);
     jointsConfiguration := j; stateTime := 0 |}.

(** Utilities.cpp:16-116.  [valid], [loads], [baseOk], [stateOk]: answers of the
    settings and of KinDynComputations, in the order of the code.  The partially
    written states of failing calls are not tracked; the input state does not
    influence the others, so it is not a parameter. *)
Definition fill (valid loads baseOk stateOk : bool) (j : list R) (lf rf : foot) : fill_outcome :=
  if negb valid || negb loads || negb baseOk || negb stateOk then FillFalse else
  let lpos := map (tapply worldLeft) lp in
  let rpos := map (tapply (worldRight j)) rp in
  if negb (Nat.leb (length lp) (length rp)) then FillUndefined else
  match wrenches (worldCoM j) (snd worldLeft) (snd (worldRight j)) with
  | None => match lf, rf with Some _, Some _ => FillNaN | _, _ => FillFalse end
  | Some (wl, wr) =>
    match getForces qrsolve lf wl, getForces qrsolve rf wr with
    | Some fl, Some fr =>
      match give_forces lpos fl, give_forces (firstn (length lp) rpos) fr with
      | Some ls, Some rs => FillOk (filled j ls rs)
      | _, _ => FillUndefined
      end
    | _, _ => FillFalse
    end
  end.
End Fill.
