(** Model of src/private/TimelySharedKinDynComputations.cpp. *)
From Coq Require Import Reals List Arith Bool Lra Lia.
From Verif Require Import SpecTimely.
Import ListNotations.
Local Open Scope R_scope.

(** A double that is a finite number or not a number. *)
Definition num := option R.
Definition lt_n (a b : num) : bool := match a, b with Some x, Some y => if Rlt_dec x y then true else false | _, _ => false end.
Definition le_n (a b : num) : bool := match a, b with Some x, Some y => if Rle_dec x y then true else false | _, _ => false end.
Definition minus_n (a b : num) : num := match a, b with Some x, Some y => Some (x - y) | _, _ => None end.
(** iDynTree::checkDoublesAreEqual: fabs(a - b) < tol (DEFAULT_TOL is 1e-10). *)
Definition checkDoublesAreEqual (tol : R) (a b : num) : bool :=
  match minus_n a b with Some d => if Rlt_dec (Rabs d) tol then true else false | None => false end.

(** Outcome of the search: an index, a read outside the container, or fuel exhausted
    (the model of the loop was cut: shown never to happen). *)
Inductive outcome := Idx (i : nat) | OutOfBounds | NoFuel.

Section Search.
Variable tol : R.
Variable ts : list R.
(** m_pointerContainer[i].time; reads outside are a distinct outcome. *)
Definition at_ (i : nat) (k : num -> outcome) : outcome :=
  match nth_error ts i with Some t => k (Some t) | None => OutOfBounds end.

(** TimelySharedKinDynComputations.cpp:39-77.  [mid - 1] of size_t: with mid = 0 it is
    2^64 - 1, outside any container. *)
Definition pred_at (mid : nat) (k : num -> outcome) : outcome :=
  match mid with O => OutOfBounds | S m => at_ m k end.
Fixpoint bsearch (fuel : nat) (time : num) (i j mid : nat) : outcome :=
  match fuel with
  | O => NoFuel
  | S f =>
    if Nat.ltb i j then
      let mid := Nat.div (i + j) 2 in
      at_ mid (fun tm =>
        if checkDoublesAreEqual tol time tm then Idx mid
        else if lt_n time tm then
          pred_at mid (fun tp =>
            if lt_n tp time then
              Idx (if le_n (minus_n tm time) (minus_n time tp) then mid else (mid - 1)%nat)
            else bsearch f time i mid mid)
        else
          at_ (mid + 1) (fun tn =>
            if lt_n time tn then
              Idx (if le_n (minus_n tn time) (minus_n time tm) then (mid + 1)%nat else mid)
            else bsearch f time (mid + 1) j mid))
    else Idx mid
  end.

(** TimelySharedKinDynComputations.cpp:18-78; the returned index is always the new
    m_previousIndex. *)
Definition getClosestIndex (prev : nat) (time : num) : outcome :=
  at_ 0 (fun t0 =>
    if le_n time t0 then Idx 0
    else at_ (length ts - 1) (fun tl =>
      if le_n tl time then Idx (length ts - 1)
      else at_ prev (fun tp =>
        if checkDoublesAreEqual tol time tp then Idx prev
        else
          let search := bsearch (S (length ts)) time 0 (length ts) 0 in
          if Nat.ltb (prev + 1) (length ts) then
            at_ (prev + 1) (fun tn => if checkDoublesAreEqual tol time tn then Idx (prev + 1) else search)
          else search))).
End Search.

(** The object.  Kinematics objects are named by numbers; 0 is the shared template. *)
Record timely := mkTimely { m_pointerContainer : list (R * nat); m_timingsSet : bool; m_previousIndex : nat; nextObject : nat }.
(** :80-85 *)
Definition timely_new : timely := mkTimely [] false 0 1.
(** :135-155; [valid] is the answer of isValid(). *)
Fixpoint assign (timings : list R) (c : list (R * nat)) (next : nat) : list (R * nat) * nat :=
  match timings with
  | [] => (c, next)
  | t :: r =>
    match c with
    | (_, p) :: c' => let '(c2, n2) := assign r c' next in ((t, p) :: c2, n2)
    | [] => let '(c2, n2) := assign r [] (S next) in ((t, next) :: c2, n2)
    end
  end.
Definition setTimings (valid : bool) (timings : list R) (o : timely) : timely * bool :=
  if negb valid then (o, false)
  else let '(c, n) := assign timings (m_pointerContainer o) (nextObject o) in
       (mkTimely c true (m_previousIndex o) n, true).
(** :157-166; [None]: read outside the container. *)
Definition get (tol : R) (time : num) (o : timely) : option (timely * nat) :=
  if m_timingsSet o then
    match getClosestIndex tol (map fst (m_pointerContainer o)) (m_previousIndex o) time with
    | Idx i =>
      match nth_error (m_pointerContainer o) i with
      | Some (_, p) => Some (mkTimely (m_pointerContainer o) true i (nextObject o), p)
      | None => None
      end
    | _ => None
    end
  else Some (o, 0%nat).
