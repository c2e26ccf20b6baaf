(** Independent vocabulary for C38: nearest knots. *)
From Coq Require Import Reals List Arith Bool Lra Lia Sorted.
Import ListNotations.
Local Open Scope R_scope.
(** Knot [i] exists and no knot is nearer to [t]. *)
Definition nearest (ts : list R) (t : R) (i : nat) : Prop :=
  exists ti, nth_error ts i = Some ti /\ forall j tj, nth_error ts j = Some tj -> Rabs (t - ti) <= Rabs (t - tj).
(** Knot [i] exists and is closer than [tol]. *)
Definition within (tol : R) (ts : list R) (t : R) (i : nat) : Prop :=
  exists ti, nth_error ts i = Some ti /\ Rabs (t - ti) < tol.
Definition sorted (ts : list R) : Prop :=
  forall i j a b, (i <= j)%nat -> nth_error ts i = Some a -> nth_error ts j = Some b -> a <= b.
