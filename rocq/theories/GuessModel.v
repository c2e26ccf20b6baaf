(** Model of TranslatingCoMStateGuess, src/Utilities.cpp:198-228, and of
    ExponentialWeight, src/Utilities.cpp:362-386. *)
From Coq Require Import Reals List Arith Bool Lra Lia.
From Verif Require Import SpecState SpecGeometry.
Import ListNotations.
Local Open Scope R_scope.

Section Guess.
Variable Rot : Type.
(** m_comReference->get(time, isValid), a vector of size three (external). *)
Variable comReference : R -> V3 * bool.

(** Members m_state and m_initialState (198-202: both start as the given state). *)
Record guess := mkGuess { g_state : state Rot; g_initial : state Rot }.
Definition newGuess (s : state Rot) : guess := mkGuess s s.

(** The loops 216-222 over m_state's points; [None]: m_initialState has fewer. *)
Fixpoint move_points (d : V3) (cur ini : list point_state) : option (list point_state) :=
  match cur, ini with
  | [], _ => Some []
  | c :: cur', i :: ini' => option_map (cons (mkPointState (pointForce c) (add3 (pointPosition i) d))) (move_points d cur' ini')
  | _ :: _, [] => None
  end.

(** Utilities.cpp:207-228; the result is a reference to m_state. *)
Definition guess_get (g : guess) (t : R) : option (guess * bool) :=
  let ini := g_initial g in
  let com := fst (comReference t) in
  let d := sub3 com (comPosition ini) in
  match move_points d (leftContactPointsState (g_state g)) (leftContactPointsState ini),
        move_points d (rightContactPointsState (g_state g)) (rightContactPointsState ini) with
  | Some l, Some r =>
    Some (mkGuess
      {| leftContactPointsState := l; rightContactPointsState := r; momentumInCoM := (zero3, zero3);
         comPosition := com; basePosition := add3 (basePosition ini) d; baseRotation := baseRotation ini;
         jointsConfiguration := jointsConfiguration ini; stateTime := t |} ini, true)
  | _, _ => None
  end.
(** The result is a non constant reference: the caller may overwrite the member. *)
Definition caller_writes (g : guess) (s : state Rot) : guess := mkGuess s (g_initial g).
End Guess.
Arguments g_state {Rot}. Arguments g_initial {Rot}. Arguments newGuess {Rot}. Arguments guess_get {Rot}.
Arguments caller_writes {Rot}.

(** Utilities.cpp:379-386: m_output is a buffer. *)
Definition exponentialWeight (a b c d t : R) : R * bool := (a * exp (b * (t - d)) + c, true).
