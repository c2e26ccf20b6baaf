(** Independent vocabulary for the bounds of the variables (C36, C37): arithmetic
    on double precision values and the documented boxes, variable by variable. *)
From Coq Require Import Reals List Arith Bool Lra Lia.
From Verif Require Import SpecSettings.
Import ListNotations.
Local Open Scope R_scope.

Definition dneg (a : dbl) : dbl :=
  match a with Fin x => Fin (- x) | PInf => NInf | NInf => PInf | NaN => NaN end.
Definition dadd (a b : dbl) : dbl :=
  match a, b with
  | NaN, _ | _, NaN | PInf, NInf | NInf, PInf => NaN
  | PInf, _ | _, PInf => PInf
  | NInf, _ | _, NInf => NInf
  | Fin x, Fin y => Fin (x + y)
  end.
(** Product; an infinity times zero is not a number. *)
Definition dscale (x : R) (inf : dbl) : dbl :=
  if Rlt_dec 0 x then inf else if Rlt_dec x 0 then dneg inf else NaN.
Definition dmul (a b : dbl) : dbl :=
  match a, b with
  | NaN, _ | _, NaN => NaN
  | Fin x, Fin y => Fin (x * y)
  | Fin x, i | i, Fin x => dscale x i
  | PInf, i => i
  | NInf, i => dneg i
  end.

Definition D3 := (dbl * dbl * dbl)%type.
Definition ld3 (v : D3) : list dbl := let '(a, b, c) := v in [a; b; c].
Definition neg3 (v : D3) : D3 := let '(a, b, c) := v in (dneg a, dneg b, dneg c).

(** ** The boxes, in the order of the variables documented by [state_vector] and
    [control_vector] of SpecState: per point (force, position), left foot first, then
    momentum, centre of mass, base position, base quaternion, joints. *)
Definition points {A} (n : nat) (block : list A) : list A := concat (repeat block (2 * n)).

(** Below: the ground and non negative normal forces for the points, the angular
    momentum, the height of the centre of mass ([com]) and the joint limits. *)
Definition state_lower (minf : dbl) (n : nat) (maxAngularMomentum : dbl) (com : list dbl) (jl : list (dbl * dbl)) : list dbl :=
  points n ([minf; minf; Fin 0] ++ [minf; minf; Fin 0])
  ++ [minf; minf; minf; dneg maxAngularMomentum; dneg maxAngularMomentum; dneg maxAngularMomentum]
  ++ com ++ repeat minf 3 ++ repeat minf 4 ++ map fst jl.
Definition state_upper (pinf : dbl) (n : nat) (maxAngularMomentum : dbl) (com : list dbl) (jl : list (dbl * dbl)) : list dbl :=
  points n (repeat pinf 3 ++ repeat pinf 3)
  ++ [pinf; pinf; pinf; maxAngularMomentum; maxAngularMomentum; maxAngularMomentum]
  ++ com ++ repeat pinf 3 ++ repeat pinf 4 ++ map snd jl.
(** Per point (velocity control, force control), then base linear velocity,
    quaternion derivative, joints velocity. *)
Definition control_box (inf : dbl) (n : nat) (velocity force : D3) (joints : list dbl) : list dbl :=
  points n (ld3 velocity ++ ld3 force) ++ repeat inf 3 ++ repeat inf 4 ++ joints.
Definition zeroD3 : D3 := (Fin 0, Fin 0, Fin 0).

(** Entry by entry order. *)
Definition below (l u : list dbl) : Prop := Forall2 dle l u.
