(** Independent vocabulary for time ranges and lists of timed positions
    (C29, C30, C43). *)
From Coq Require Import Reals List Arith Bool Lra Lia.
From Verif Require Import SpecState.
Import ListNotations.
Local Open Scope R_scope.

(** A time range (iDynTree::optimalcontrol::TimeRange): an interval, or any time. *)
Record timerange := mkRange { initTime : R; endTime : R; anyTime : bool }.
Definition in_range (r : timerange) (t : R) : Prop := anyTime r = true \/ initTime r <= t <= endTime r.

Record timed := mkTimed { desiredPosition : V3; activeRange : timerange }.

(** [e] is the last element of [l] whose range contains [t]. *)
Definition last_active (l : list timed) (t : R) (e : timed) : Prop :=
  exists i, nth_error l i = Some e /\ in_range (activeRange e) t /\
    forall j e', (i < j)%nat -> nth_error l j = Some e' -> ~ in_range (activeRange e') t.
Definition none_active (l : list timed) (t : R) : Prop :=
  forall e, In e l -> ~ in_range (activeRange e) t.

(** Replace entry [i]; first [n] entries, padded. *)
Fixpoint replace_nth {A} (i : nat) (a : A) (l : list A) : list A :=
  match l, i with
  | [], _ => []
  | _ :: r, O => a :: r
  | x :: r, S j => x :: replace_nth j a r
  end.
Definition resized {A} (n : nat) (d : A) (l : list A) : list A := firstn n l ++ repeat d (n - length l).
