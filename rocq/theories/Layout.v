(** Model of the variable structure of the solver and of the conversions between
    states / controls and optimisation vectors (src/Solver.cpp). *)
From Coq Require Import Reals String List Arith Bool Lia.
From Verif Require Import SpecLayout SpecState Labeller.
Import ListNotations.
Local Open Scope nat_scope.

Definition range := option (nat * nat).

(** IndexRange::isValid of iDynTree is not in /repo; whether a range of size zero
    is valid is the parameter [zero_ok]. *)
Definition range_valid (zero_ok : bool) (r : range) : bool :=
  match r with Some (_, s) => zero_ok || (0 <? s) | None => false end.

(** Solver.cpp:76-78. *)
Record foot_ranges := mkFR {
  positionPoints : list range; forcePoints : list range;
  velocityControlPoints : list range; forceControlPoints : list range }.
Definition empty_fr := mkFR [] [] [] [].

(** Solver.cpp:80-85. *)
Record var_ranges := mkVR {
  vr_left : foot_ranges; vr_right : foot_ranges;
  r_momentum : range; r_com : range; r_basePosition : range; r_baseQuaternion : range;
  r_joints : range; r_baseLinVel : range; r_baseQuatDer : range; r_jointsVel : range;
  stateDimension : nat; controlDimension : nat }.

(** Solver.cpp:1298-1323, setFootVariables: the loop body for the points [idxs].
    Simplification: when a range is refused the entries not yet assigned are
    invalid (in the code they keep whatever the resized vector held). *)
Fixpoint foot_loop (zok : bool) (foot : string) (idxs : list nat) (St Ct : labeller) (fr : foot_ranges)
  : labeller * labeller * foot_ranges * bool :=
  match idxs with
  | [] => (St, Ct, fr, true)
  | i :: rest =>
    let (S1, rf) := addLabelAndGetIndexRange St (foot ++ "ForcePoint" ++ decimal i)%string 3 in
    if negb (range_valid zok rf) then (S1, Ct, fr, false) else
    let (S2, rp) := addLabelAndGetIndexRange S1 (foot ++ "PositionPoint" ++ decimal i)%string 3 in
    if negb (range_valid zok rp) then (S2, Ct, fr, false) else
    let (C1, rv) := addLabelAndGetIndexRange Ct (foot ++ "VelocityControlPoint" ++ decimal i)%string 3 in
    if negb (range_valid zok rv) then (S2, C1, fr, false) else
    let (C2, rc) := addLabelAndGetIndexRange C1 (foot ++ "ForceControlPoint" ++ decimal i)%string 3 in
    if negb (range_valid zok rc) then (S2, C2, fr, false) else
    foot_loop zok foot rest S2 C2
      (mkFR (positionPoints fr ++ [rp]) (forcePoints fr ++ [rf])
            (velocityControlPoints fr ++ [rv]) (forceControlPoints fr ++ [rc]))
  end.
Definition setFootVariables zok foot n St Ct := foot_loop zok foot (seq 0 n) St Ct empty_fr.

(** Solver.cpp:330-382, setVariablesStructure: the structures are cleared, the
    results of setFootVariables are ignored, a refused label returns false.  On
    failure the ranges are not observable here ([None]). *)
Definition setVariablesStructure (zok : bool) (dofs n : nat) (S0 C0 : labeller)
  : labeller * labeller * option var_ranges :=
  let St := lab_clear S0 in
  let Ct := lab_clear C0 in
  let '(St, Ct, lft, _) := setFootVariables zok "Left" n St Ct in
  let '(St, Ct, rgt, _) := setFootVariables zok "Right" n St Ct in
  let (St, rm) := addLabelAndGetIndexRange St "Momentum" 6 in
  if negb (range_valid zok rm) then (St, Ct, None) else
  let (St, rc) := addLabelAndGetIndexRange St "CoMPosition" 3 in
  if negb (range_valid zok rc) then (St, Ct, None) else
  let (St, rb) := addLabelAndGetIndexRange St "BasePosition" 3 in
  if negb (range_valid zok rb) then (St, Ct, None) else
  let (St, rq) := addLabelAndGetIndexRange St "BaseQuaternion" 4 in
  if negb (range_valid zok rq) then (St, Ct, None) else
  let (St, rj) := addLabelAndGetIndexRange St "JointsPosition" dofs in
  if negb (range_valid zok rj) then (St, Ct, None) else
  let (Ct, rl) := addLabelAndGetIndexRange Ct "BaseLinearVelocity" 3 in
  if negb (range_valid zok rl) then (St, Ct, None) else
  let (Ct, rqd) := addLabelAndGetIndexRange Ct "BaseQuaternionDerivative" 4 in
  if negb (range_valid zok rqd) then (St, Ct, None) else
  let (Ct, rjv) := addLabelAndGetIndexRange Ct "JointsVelocity" dofs in
  if negb (range_valid zok rjv) then (St, Ct, None) else
  (St, Ct, Some (mkVR lft rgt rm rc rb rq rj rl rqd rjv (lab_size St) (lab_size Ct))).

(** std::string::find(p) != npos. *)
Fixpoint is_prefix (p s : string) : bool :=
  match p, s with
  | EmptyString, _ => true
  | String a p', String b s' => Ascii.eqb a b && is_prefix p' s'
  | _, _ => false
  end.
Fixpoint contains (p s : string) : bool :=
  is_prefix p s || match s with EmptyString => false | String _ s' => contains p s' end.

(** The loops over listOfLabels() that collect the ranges of the labels that
    contain a given string: MeanPointPositionCost.cpp:40-50, FeetDistanceCost.cpp:40-52,
    FeetRelativeHeightConstraint.cpp:38-57, DynamicalConstraints.cpp:364-373,
    StaticTorquesCost.cpp:154-160. *)
Definition ranges_containing (L : labeller) (p : string) : list range :=
  map (getIndexRange L) (filter (contains p) (listOfLabels L)).
(** ForceMeanCost.cpp:45-52, ForceRatioCost.cpp:46-53: the same, but the own
    label is skipped. *)
Definition other_ranges_containing (L : labeller) (p own : string) : list range :=
  map (getIndexRange L)
      (filter (fun l => contains p l && negb (String.eqb l own)) (listOfLabels L)).

(** Eigen segment assignment: the range must be valid, have the size of the
    source and lie in the vector. *)
Definition set_segment (r : range) (vs : list R) (v : list R) : option (list R) :=
  match r with
  | Some (o, s) =>
    if (length vs =? s) && (o + s <=? length v) then Some (write_at v o vs) else None
  | None => None
  end.
(** make_span(v).subspan(offset, size). *)
Definition get_segment (r : range) (v : list R) : option (list R) :=
  match r with
  | Some (o, s) => if o + s <=? length v then Some (segment v (o, s)) else None
  | None => None
  end.

Definition bind {A B} (x : option A) (f : A -> option B) : option B :=
  match x with Some a => f a | None => None end.
Notation "'do' x <- e ; k" := (bind e (fun x => k)) (at level 60, x pattern, right associativity).

Definition of3 (l : list R) : option V3 := match l with [a;b;c] => Some (a,b,c) | _ => None end.
Definition of4 (l : list R) : option V4 := match l with [a;b;c;d] => Some (a,b,c,d) | _ => None end.
Definition of6 (l : list R) : option V6 :=
  match l with [a;b;c;d;e;f] => Some ((a,b,c),(d,e,f)) | _ => None end.

(** QuaternionUtils.cpp:38-43 NormalizedQuaternion: Eigen's normalized() divides
    by the norm when the squared norm is positive and returns the vector
    otherwise. *)
Definition sqnorm4 (q : V4) : R := let '(a,b,c,d) := q in (a*a + b*b + c*c + d*d)%R.
Definition normalized4 (q : V4) : V4 :=
  let '(a,b,c,d) := q in
  if Rlt_dec 0 (sqnorm4 q)
  then (let n := sqrt (sqnorm4 q) in (a/n, b/n, c/n, d/n))%R
  else q.

Section Rotations.
Context {Rot : Type} (asQuaternion : Rot -> V4) (fromQuaternion : V4 -> Rot).

(** State::checkSize (src/State.cpp:83-88), Control::checkSize (src/Control.cpp). *)
Definition checkSize (s : state Rot) (dofs n : nat) : bool :=
  (length (leftContactPointsState s) =? n) && (length (rightContactPointsState s) =? n)
  && (length (jointsConfiguration s) =? dofs).
Definition checkSizeC (c : control) (dofs n : nat) : bool :=
  (length (leftContactPointsControl c) =? n) && (length (rightContactPointsControl c) =? n)
  && (length (jointsVelocity c) =? dofs).

(** The loops over the points of one foot (e.g. Solver.cpp:1279-1282): one
    iteration per position range; an index past the end of the state's points is
    undefined behaviour. *)
Fixpoint write_points (rp rf : list range) (pts : list point_state) (v : list R) : option (list R) :=
  match rp, rf, pts with
  | [], _, _ => Some v
  | p :: rp', f :: rf', x :: pts' =>
    do v <- set_segment p (l3 (pointPosition x)) v;
    do v <- set_segment f (l3 (pointForce x)) v;
    write_points rp' rf' pts' v
  | _, _, _ => None
  end.

(** The body shared by StateGuesses::get (Solver.cpp:130-145) and
    fillInitialState (Solver.cpp:1279-1295). *)
Definition write_state (vr : var_ranges) (s : state Rot) (v : list R) : option (list R) :=
  do v <- write_points (positionPoints (vr_left vr)) (forcePoints (vr_left vr)) (leftContactPointsState s) v;
  do v <- write_points (positionPoints (vr_right vr)) (forcePoints (vr_right vr)) (rightContactPointsState s) v;
  do v <- set_segment (r_momentum vr) (l6 (momentumInCoM s)) v;
  do v <- set_segment (r_com vr) (l3 (comPosition s)) v;
  do v <- set_segment (r_basePosition vr) (l3 (basePosition s)) v;
  do v <- set_segment (r_baseQuaternion vr) (l4 (asQuaternion (baseRotation s))) v;
  set_segment (r_joints vr) (jointsConfiguration s) v.

(** Solver.cpp:1276-1296.  [junk k] is the content of a vector resized to [k]
    entries, which nothing specifies. *)
Definition range_size (r : range) : nat := match r with Some (_, s) => s | None => 0 end.
Definition fillInitialState (junk : nat -> list R) (vr : var_ranges) (s : state Rot) : option (list R) :=
  write_state vr s (junk (length (positionPoints (vr_left vr)) * 2 * 6 + 16 + range_size (r_joints vr))).

(** StateGuesses::get (Solver.cpp:112-148): [guess] is the answer of the user's
    object (state, validity), [buffer] the content left by previous calls; the
    result is (vector, validity). *)
Definition zero_like (v : list R) : list R := map (fun _ => 0%R) v.
Definition stateGuess_get (vr : var_ranges) (buffer : list R) (guess : state Rot * bool)
  : option (list R * bool) :=
  let (s, valid) := guess in
  if negb valid then Some (zero_like buffer, false)
  else if negb (checkSize s (range_size (r_joints vr)) (length (positionPoints (vr_left vr))))
  then Some (zero_like buffer, false)
  else do v <- write_state vr s buffer; Some (v, true).

Fixpoint read_points (v : list R) (rp rf : list range) (pts : list point_state) : option (list point_state) :=
  match rp, rf, pts with
  | [], _, _ => Some pts
  | p :: rp', f :: rf', _ :: pts' =>
    do lp <- get_segment p v; do pos <- of3 lp;
    do lf <- get_segment f v; do force <- of3 lf;
    do rest <- read_points v rp' rf' pts';
    Some (mkPointState force pos :: rest)
  | _, _, _ => None
  end.

(** Solver.cpp:1339-1362. *)
Definition setStateFromVariables (vr : var_ranges) (v : list R) (time : R) (s : state Rot) : option (state Rot) :=
  do lft <- read_points v (positionPoints (vr_left vr)) (forcePoints (vr_left vr)) (leftContactPointsState s);
  do rgt <- read_points v (positionPoints (vr_right vr)) (forcePoints (vr_right vr)) (rightContactPointsState s);
  do lm <- get_segment (r_momentum vr) v; do mom <- of6 lm;
  do lc <- get_segment (r_com vr) v; do com <- of3 lc;
  do lb <- get_segment (r_basePosition vr) v; do base <- of3 lb;
  do lq <- get_segment (r_baseQuaternion vr) v; do q <- of4 lq;
  do joints <- get_segment (r_joints vr) v;
  Some (mkState lft rgt mom com base (fromQuaternion (normalized4 q)) joints time).
End Rotations.

Fixpoint write_pointsC (rf rv : list range) (pts : list point_control) (v : list R) : option (list R) :=
  match rf, rv, pts with
  | [], _, _ => Some v
  | f :: rf', p :: rv', x :: pts' =>
    do v <- set_segment f (l3 (pointForceControl x)) v;
    do v <- set_segment p (l3 (pointVelocityControl x)) v;
    write_pointsC rf' rv' pts' v
  | _, _, _ => None
  end.

(** Solver.cpp:197-210. *)
Definition write_control (vr : var_ranges) (c : control) (v : list R) : option (list R) :=
  do v <- write_pointsC (forceControlPoints (vr_left vr)) (velocityControlPoints (vr_left vr)) (leftContactPointsControl c) v;
  do v <- write_pointsC (forceControlPoints (vr_right vr)) (velocityControlPoints (vr_right vr)) (rightContactPointsControl c) v;
  do v <- set_segment (r_baseLinVel vr) (l3 (baseLinearVelocity c)) v;
  do v <- set_segment (r_baseQuatDer vr) (l4 (baseQuaternionDerivative c)) v;
  set_segment (r_jointsVel vr) (jointsVelocity c) v.

(** ControlGuesses::get (Solver.cpp:179-213). *)
Definition controlGuess_get (vr : var_ranges) (buffer : list R) (guess : control * bool)
  : option (list R * bool) :=
  let (c, valid) := guess in
  if negb valid then Some (zero_like buffer, false)
  else if negb (checkSizeC c (range_size (r_joints vr)) (length (positionPoints (vr_left vr))))
  then Some (zero_like buffer, false)
  else do v <- write_control vr c buffer; Some (v, true).

Fixpoint read_pointsC (v : list R) (rf rv : list range) (pts : list point_control) : option (list point_control) :=
  match rf, rv, pts with
  | [], _, _ => Some pts
  | f :: rf', p :: rv', _ :: pts' =>
    do lf <- get_segment f v; do force <- of3 lf;
    do lv <- get_segment p v; do vel <- of3 lv;
    do rest <- read_pointsC v rf' rv' pts';
    Some (mkPointControl force vel :: rest)
  | _, _, _ => None
  end.

(** Solver.cpp:1364-1380. *)
Definition setControlFromVariables (vr : var_ranges) (v : list R) (time : R) (c : control) : option control :=
  do lft <- read_pointsC v (forceControlPoints (vr_left vr)) (velocityControlPoints (vr_left vr)) (leftContactPointsControl c);
  do rgt <- read_pointsC v (forceControlPoints (vr_right vr)) (velocityControlPoints (vr_right vr)) (rightContactPointsControl c);
  do lb <- get_segment (r_baseLinVel vr) v; do lin <- of3 lb;
  do lq <- get_segment (r_baseQuatDer vr) v; do qd <- of4 lq;
  do joints <- get_segment (r_jointsVel vr) v;
  Some (mkControl lft rgt lin qd joints time).
