(** What a user writes, run by the library: each operator of the formula is one call. *)
From Coq Require Import String Reals List Arith Bool QArith ZArith.
From Verif Require Import Spec SpecDerivatives LeviExpr.
Import ListNotations.
Local Open Scope R_scope.
Set Implicit Arguments.
Notation "x <- o ;; k" := (bind o (fun x => k)) (at level 61, o at next level, right associativity).

Section Build.
Variable vdim : nat -> nat.
Variables urows ucols : nat -> nat.
Variable run : cmd -> option expr.      (* what the operations return *)
Notation rows := (rows vdim urows ucols).
Notation cols := (cols vdim urows ucols).
Notation is_scalar := (is_scalar vdim urows ucols).

(** The operators of ExpressionComponent (ExpressionImplementation.h:273-1040): operator/ 611-625, pow 683-690,
    skew 855-864, vee 866-874, asVariable 889-895 (the column vectors only), Horzcat/Vertcat and
    ComposeByRows/ComposeByCols 983-1040, constants and variables 20-98; the others are the commands of [exec]. *)
Fixpoint build (f : formula) : option expr :=
  match f with
  | FConst r c m => Some (EConst r c m)
  | FNull r c => Some (ENull r c)
  | FIdent m => Some (EIdent m m)
  | FVar u => Some (EVar u)
  | FAsVar u f => a <- build f ;; guard ((cols a =? 1) && (rows a =? vdim u)) (Some (EAsVar u a))
  | FUser k => Some (EUser k)
  | FAdd f g => a <- build f ;; b <- build g ;; run (CAdd a b)
  | FSub f g => a <- build f ;; b <- build g ;; run (CSub a b)
  | FNeg f => a <- build f ;; run (CNeg a)
  | FMul f g => a <- build f ;; b <- build g ;; run (CMul a b)
  | FDiv f g => a <- build f ;; b <- build g ;; guard (is_scalar b) (Some (EDiv a b))
  | FPow f q => a <- build f ;; guard (is_scalar a) (Some (EPow a q))
  | FSkew f => a <- build f ;; guard ((rows a =? 3) && (cols a =? 1)) (Some (ESkew a))
  | FVee f => a <- build f ;; guard ((rows a =? 3) && (cols a =? 3)) (Some (EVee a))
  | FTransp f => a <- build f ;; run (CTransp a)
  | FRow f i => a <- build f ;; run (CRow a i)
  | FCol f j => a <- build f ;; run (CCol a j)
  | FElem f i j => a <- build f ;; run (CElem a i j)
  | FBlock f i j r c => a <- build f ;; run (CBlock a i j r c)
  | FByRows l => l' <- traverse build l ;; by_rows vdim urows ucols l'
  | FByCols l => l' <- traverse build l ;; by_cols vdim urows ucols l'
  | FHorz f g => a <- build f ;; b <- build g ;; guard (rows a =? rows b) (Some (EHorz a b))
  | FVert f g => a <- build f ;; b <- build g ;; guard (cols a =? cols b) (Some (EVert a b))
  | FDeriv f k v => a <- build f ;; run (CDeriv a k v)
  end%nat.
End Build.
