(** Independent vocabulary for C45: matrix formulas and what they mean.  Nothing here depends on the
    model of levi.  A formula is what a user writes with the operators of the library; its meaning is
    the usual matrix algebra over the reals; the meaning of a derivative is Coquelicot's [Derive]. *)
From Coq Require Import Reals List Arith Bool QArith Qabs ZArith.
From Coquelicot Require Import Coquelicot.
From Verif Require Import Spec.
Import ListNotations.
Local Open Scope R_scope.
Set Implicit Arguments.

(** Values of the variables: one vector per variable. *)
Definition env := nat -> vec.
Definition env_set (rho : env) (v : nat) (x : vec) : env := fun u => if Nat.eqb u v then x else rho u.
(** Entry [j] of variable [v] replaced by [t]. *)
Definition at_entry (rho : env) (v j : nat) (t : R) : env := env_set rho v (vset (rho v) j t).

(** x to the power q: an integer power when q is an integer, exp (q ln x) otherwise. *)
Definition qint (q : Q) : option Z :=
  if Z.eqb (Z.modulo (Qnum q) (Zpos (Qden q))) 0 then Some (Z.div (Qnum q) (Zpos (Qden q))) else None.
Definition rpow (x : R) (q : Q) : R :=
  match qint q with Some z => powerRZ x z | None => Rpower x (Q2R q) end.
(** Where the power is smooth: everywhere for a positive integer, away from zero for the other integers, on the
    positive reals otherwise. *)
Definition pow_dom (x : R) (q : Q) : Prop :=
  match qint q with Some z => (1 <= z)%Z \/ x <> 0 | None => 0 < x end.
(** The library takes the derivative of x^q to be 1 when |q - 1| < 1e-15: exponents that close to a positive
    integer, but different from it, are excluded. *)
Definition good_exponent (q : Q) : Prop :=
  forall n : nat, (1 <= n)%nat -> (Qabs (q - inject_Z (Z.of_nat n)) < 1 # 1000000000000000)%Q -> (q == inject_Z (Z.of_nat n))%Q.

Definition all_of (l : list Prop) : Prop := fold_right and True l.

Inductive formula :=
| FConst (r c : nat) (m : mat)
| FNull (r c : nat)
| FIdent (n : nat)
| FVar (u : nat)
| FAsVar (u : nat) (f : formula)        (* an expression given the role of variable u *)
| FUser (k : nat)                       (* a function the library does not know *)
| FAdd (f g : formula) | FSub (f g : formula) | FNeg (f : formula) | FMul (f g : formula)
| FDiv (f g : formula) | FPow (f : formula) (q : Q)
| FSkew (f : formula) | FVee (f : formula) | FTransp (f : formula)
| FRow (f : formula) (i : nat) | FCol (f : formula) (j : nat) | FElem (f : formula) (i j : nat)
| FBlock (f : formula) (i j r c : nat)
| FByRows (l : list formula) | FByCols (l : list formula)
| FHorz (f g : formula) | FVert (f g : formula)
| FDeriv (f : formula) (col v : nat).   (* derivative of column [col] with respect to variable [v] *)

Section Meaning.
Variable vdim : nat -> nat.             (* dimension of each variable *)
Variables urows ucols : nat -> nat.
Variable ueval : nat -> env -> mat.
Variable udom : nat -> env -> Prop.

(** Rows and columns. *)
Fixpoint frows (f : formula) : nat :=
  match f with
  | FConst r _ _ | FNull r _ => r
  | FIdent n => n
  | FVar u => vdim u
  | FAsVar _ f => frows f
  | FUser k => urows k
  | FAdd f _ | FSub f _ | FNeg f => frows f
  | FMul f g => if ((frows f =? 1) && (fcols f =? 1))%nat then frows g else frows f
  | FDiv f _ => frows f
  | FPow _ _ => 1
  | FSkew _ => 3 | FVee _ => 3
  | FTransp f => fcols f
  | FRow _ _ => 1 | FCol f _ => frows f | FElem _ _ _ => 1 | FBlock _ _ _ r _ => r
  | FByRows l => length l
  | FByCols l => match l with [] => 0 | f :: _ => frows f end
  | FHorz f _ => frows f
  | FVert f g => frows f + frows g
  | FDeriv f _ _ => frows f
  end%nat
with fcols (f : formula) : nat :=
  match f with
  | FConst _ c _ | FNull _ c => c
  | FIdent n => n
  | FVar _ | FAsVar _ _ => 1
  | FUser k => ucols k
  | FAdd f _ | FSub f _ | FNeg f => fcols f
  | FMul f g => if ((frows f =? 1) && (fcols f =? 1))%nat then fcols g
                else if ((frows g =? 1) && (fcols g =? 1))%nat then fcols f else fcols g
  | FDiv f _ => fcols f
  | FPow _ _ => 1
  | FSkew _ => 3 | FVee _ => 1
  | FTransp f => frows f
  | FRow f _ => fcols f | FCol _ _ => 1 | FElem _ _ _ => 1 | FBlock _ _ _ _ c => c
  | FByRows l => match l with [] => 0 | f :: _ => fcols f end
  | FByCols l => length l
  | FHorz f g => fcols f + fcols g
  | FVert f _ => fcols f
  | FDeriv _ _ v => vdim v
  end%nat.

(** The entries. *)
Fixpoint meaning (rho : env) (f : formula) (i j : nat) : R :=
  match f with
  | FConst _ _ m => m i j
  | FNull _ _ => 0
  | FIdent _ => if (i =? j)%nat then 1 else 0
  | FVar u => rho u i
  | FAsVar u f => meaning rho f i j + rho u i     (* rho u: how far the variable is moved away from the expression *)
  | FUser k => ueval k rho i j
  | FAdd f g => meaning rho f i j + meaning rho g i j
  | FSub f g => meaning rho f i j - meaning rho g i j
  | FNeg f => - meaning rho f i j
  | FMul f g =>
      if ((frows f =? 1) && (fcols f =? 1))%nat then meaning rho f 0 0 * meaning rho g i j
      else if ((frows g =? 1) && (fcols g =? 1))%nat then meaning rho f i j * meaning rho g 0 0
      else sumn (fcols f) (fun k => meaning rho f i k * meaning rho g k j)
  | FDiv f g => meaning rho f i j / meaning rho g 0 0
  | FPow f q => rpow (meaning rho f 0 0) q
  | FSkew f =>
      match i, j with
      | 0%nat, 1%nat => - meaning rho f 2 0 | 0%nat, 2%nat => meaning rho f 1 0
      | 1%nat, 0%nat => meaning rho f 2 0 | 1%nat, 2%nat => - meaning rho f 0 0
      | 2%nat, 0%nat => - meaning rho f 1 0 | 2%nat, 1%nat => meaning rho f 0 0
      | _, _ => 0
      end
  | FVee f => match i with 0%nat => meaning rho f 2 1 | 1%nat => meaning rho f 0 2 | _ => meaning rho f 1 0 end
  | FTransp f => meaning rho f j i
  | FRow f i0 => meaning rho f i0 j
  | FCol f j0 => meaning rho f i j0
  | FElem f i0 j0 => meaning rho f i0 j0
  | FBlock f i0 j0 _ _ => meaning rho f (i0 + i) (j0 + j)
  | FByRows l => nth i (map (fun f => meaning rho f 0 j) l) 0
  | FByCols l => nth j (map (fun f => meaning rho f i 0) l) 0
  | FHorz f g => if (j <? fcols f)%nat then meaning rho f i j else meaning rho g i (j - fcols f)
  | FVert f g => if (i <? frows f)%nat then meaning rho f i j else meaning rho g (i - frows f) j
  | FDeriv f col v => Derive (fun t => meaning (at_entry rho v j t) f i col) (rho v j)
  end.

(** No derivative inside. *)
Fixpoint deriv_free (f : formula) : bool :=
  match f with
  | FConst _ _ _ | FNull _ _ | FIdent _ | FVar _ | FUser _ => true
  | FAdd f g | FSub f g | FMul f g | FDiv f g | FHorz f g | FVert f g => deriv_free f && deriv_free g
  | FAsVar _ f | FNeg f | FPow f _ | FSkew f | FVee f | FTransp f | FRow f _ | FCol f _ | FElem f _ _ | FBlock f _ _ _ _ => deriv_free f
  | FByRows l | FByCols l => forallb deriv_free l
  | FDeriv _ _ _ => false
  end.

(** The sizes fit and the indices are in range. *)
Fixpoint well_formed (f : formula) : Prop :=
  match f with
  | FConst _ _ _ | FNull _ _ | FIdent _ | FVar _ | FUser _ => True
  | FAsVar u f => well_formed f /\ fcols f = 1%nat /\ frows f = vdim u /\
                  deriv_free f = true /\
                  (forall rho x i, (i < frows f)%nat -> meaning (env_set rho u x) f i 0 = meaning rho f i 0)  (* it does not use u itself *)
  | FAdd f g | FSub f g => well_formed f /\ well_formed g /\ frows f = frows g /\ fcols f = fcols g
  | FNeg f => well_formed f
  | FMul f g => well_formed f /\ well_formed g /\
      ((frows f = 1%nat /\ fcols f = 1%nat) \/ (frows g = 1%nat /\ fcols g = 1%nat) \/ fcols f = frows g)
  | FDiv f g => well_formed f /\ well_formed g /\ fcols f = 1%nat /\ frows g = 1%nat /\ fcols g = 1%nat
  | FPow f q => well_formed f /\ frows f = 1%nat /\ fcols f = 1%nat /\ good_exponent q
  | FSkew f => well_formed f /\ frows f = 3%nat /\ fcols f = 1%nat
  | FVee f => well_formed f /\ frows f = 3%nat /\ fcols f = 3%nat
  | FTransp f => well_formed f
  | FRow f i => well_formed f /\ (i < frows f)%nat
  | FCol f j => well_formed f /\ (j < fcols f)%nat
  | FElem f i j => well_formed f /\ (i < frows f)%nat /\ (j < fcols f)%nat
  | FBlock f i j r c => well_formed f /\ (i + r <= frows f)%nat /\ (j + c <= fcols f)%nat
  | FByRows l => l <> [] /\ all_of (map well_formed l) /\
                 List.Forall (fun f => frows f = 1%nat /\ fcols f = match l with [] => 0%nat | g :: _ => fcols g end) l
  | FByCols l => l <> [] /\ all_of (map well_formed l) /\
                 List.Forall (fun f => fcols f = 1%nat /\ frows f = match l with [] => 0%nat | g :: _ => frows g end) l
  | FHorz f g => well_formed f /\ well_formed g /\ frows f = frows g
  | FVert f g => well_formed f /\ well_formed g /\ fcols f = fcols g
  | FDeriv f col _ => well_formed f /\ (col < fcols f)%nat
  end.

(** No division by zero, no power outside the set where it is smooth. *)
Fixpoint defined (rho : env) (f : formula) : Prop :=
  match f with
  | FConst _ _ _ | FNull _ _ | FIdent _ | FVar _ => True
  | FUser k => udom k rho
  | FAdd f g | FSub f g | FMul f g | FHorz f g | FVert f g => defined rho f /\ defined rho g
  | FDiv f g => defined rho f /\ defined rho g /\ meaning rho g 0 0 <> 0
  | FPow f q => defined rho f /\ pow_dom (meaning rho f 0 0) q
  | FAsVar _ f | FNeg f | FSkew f | FVee f | FTransp f | FRow f _ | FCol f _ | FElem f _ _ | FBlock f _ _ _ _ | FDeriv f _ _ => defined rho f
  | FByRows l | FByCols l => all_of (map (defined rho) l)
  end.
End Meaning.
