(** Independent vocabulary: 3-vectors as triples, rigid transforms, resultant
    wrench of forces applied at points (C26-C28, C40-C43). *)
From Coq Require Import Reals List Arith Bool Lra.
From Verif Require Import SpecState.
Import ListNotations.
Local Open Scope R_scope.

Definition zero3 : V3 := (0, 0, 0).
Definition add3 (a b : V3) : V3 := let '(x,y,z) := a in let '(u,v,w) := b in (x+u, y+v, z+w).
Definition sub3 (a b : V3) : V3 := let '(x,y,z) := a in let '(u,v,w) := b in (x-u, y-v, z-w).
Definition scale3 (c : R) (a : V3) : V3 := let '(x,y,z) := a in (c*x, c*y, c*z).
Definition dot3 (a b : V3) : R := let '(x,y,z) := a in let '(u,v,w) := b in x*u + y*v + z*w.
Definition cross3v (a b : V3) : V3 :=
  let '(x,y,z) := a in let '(u,v,w) := b in (y*w - z*v, z*u - x*w, x*v - y*u).
Definition sum3 (l : list V3) : V3 := fold_right add3 zero3 l.
Definition dist2 (a b : V3) : R := dot3 (sub3 a b) (sub3 a b).
Definition px (a : V3) : R := fst (fst a).
Definition py (a : V3) : R := snd (fst a).
Definition pz (a : V3) : R := snd a.

(** Rows of a 3 x 3 matrix; a transform is a rotation and a translation. *)
Definition M3 := (V3 * V3 * V3)%type.
Definition mul3 (m : M3) (v : V3) : V3 := let '(a,b,c) := m in (dot3 a v, dot3 b v, dot3 c v).
Definition ident3 : M3 := ((1,0,0),(0,1,0),(0,0,1)).
Definition transform := (M3 * V3)%type.
Definition tapply (t : transform) (p : V3) : V3 := add3 (mul3 (fst t) p) (snd t).
Definition tident : transform := (ident3, zero3).
(** Columns are orthonormal: distances are preserved. *)
Definition orthonormal (m : M3) : Prop :=
  let '((a,b,c),(d,e,f),(g,h,i)) := m in
  a*a + d*d + g*g = 1 /\ b*b + e*e + h*h = 1 /\ c*c + f*f + i*i = 1 /\
  a*b + d*e + g*h = 0 /\ a*c + d*f + g*i = 0 /\ b*c + e*f + h*i = 0.

(** Resultant force and moment about [o] of forces applied at points. *)
Definition resultant_force (fs : list V3) : V3 := sum3 fs.
Definition resultant_moment (o : V3) (ps fs : list V3) : V3 :=
  sum3 (map (fun pf => cross3v (sub3 (fst pf) o) (snd pf)) (combine ps fs)).

(** Exact solution of a 3 x n linear system of full row rank: what is assumed of
    the external QR solver.  [gram] is A A^T, full row rank means that its
    determinant is not zero. *)
From Verif Require Import Spec.
Definition gram (n : nat) (A : mat) (i j : nat) : R := sumn n (fun k => A i k * A j k).
Definition det3 (G : nat -> nat -> R) : R :=
  G 0%nat 0%nat * (G 1%nat 1%nat * G 2%nat 2%nat - G 1%nat 2%nat * G 2%nat 1%nat)
  - G 0%nat 1%nat * (G 1%nat 0%nat * G 2%nat 2%nat - G 1%nat 2%nat * G 2%nat 0%nat)
  + G 0%nat 2%nat * (G 1%nat 0%nat * G 2%nat 1%nat - G 1%nat 1%nat * G 2%nat 0%nat).
Definition exact_solver (solve : nat -> mat -> vec -> vec) : Prop :=
  forall n A b, det3 (gram n A) <> 0 ->
    forall i, (i < 3)%nat -> sumn n (fun k => A i k * solve n A b k) = b i.
