(** Model of the bounds of the variables (src/Solver.cpp:215-288, 1128-1248). *)
From Coq Require Import Reals String List Arith Bool Lra Lia.
From Verif Require Import SpecState SpecSettings SpecBounds SettingsModel Layout.
Import ListNotations.
Local Open Scope R_scope.

(** Writing [vs] at position [k] of the segment [r] of [v] (Solver.cpp:1325-1331:
    make_span(v).subspan(offset, size), then operator(), topRows, bottomRows,
    setConstant or a whole assignment): the range has to be valid and inside the
    vector and the entries inside the range. *)
Definition overwrite {A} (v : list A) (o : nat) (vs : list A) : list A :=
  (firstn o v ++ vs ++ skipn (o + length vs) v)%list.
Definition set_in (r : range) (k : nat) (vs : list dbl) (v : list dbl) : option (list dbl) :=
  match r with
  | Some (o, s) => if (k + length vs <=? s)%nat && (o + s <=? length v)%nat then Some (overwrite v (o + k) vs) else None
  | None => None
  end.
(** The first two and the last entries of a vector of three. *)
Definition top2 (v : D3) : list dbl := let '(a, b, _) := v in [a; b].
Definition third (v : D3) : dbl := let '(_, _, c) := v in c.

(** Solver.cpp:1139-1158 and 1160-1178: one iteration per position range. *)
Fixpoint pointBounds (st_f st_v : D3) (rp rf rfc rvc : list range) (vs : list dbl * list dbl * list dbl)
  : option (list dbl * list dbl * list dbl) :=
  match rp, rf, rfc, rvc with
  | [], _, _, _ => Some vs
  | p :: rp', f :: rf', fc :: rfc', vc :: rvc' =>
    let '(sl, cl, cu) := vs in
    do sl <- set_in p 2 [Fin 0] sl;
    do sl <- set_in f 2 [Fin 0] sl;
    do cl <- set_in fc 2 [dneg (third st_f)] cl;
    do cu <- set_in fc 2 [third st_f] cu;
    do cl <- set_in fc 0 (top2 (neg3 st_f)) cl;
    do cu <- set_in fc 0 (top2 st_f) cu;
    do cl <- set_in vc 0 (ld3 (neg3 st_v)) cl;
    do cu <- set_in vc 0 (ld3 st_v) cu;
    pointBounds st_f st_v rp' rf' rfc' rvc' (sl, cl, cu)
  | _, _, _, _ => None
  end.

(** Solver.cpp:1190-1198: one entry per limit. *)
Fixpoint jointBounds (r : range) (j : nat) (limits : list (dbl * dbl)) (vs : list dbl * list dbl) : option (list dbl * list dbl) :=
  match limits with
  | [] => Some vs
  | p :: rest =>
    let '(lo, up) := vs in
    do lo <- set_in r j [fst p] lo;
    do up <- set_in r j [snd p] up;
    jointBounds r (S j) rest (lo, up)
  end.

(** Solver.cpp:1205-1217. *)
Fixpoint freezePoints (rp rfc rvc : list range) (vs : list dbl * list dbl) : option (list dbl * list dbl) :=
  match rp, rfc, rvc with
  | [], _, _ => Some vs
  | _ :: rp', fc :: rfc', vc :: rvc' =>
    let '(cl, cu) := vs in
    do cl <- set_in vc 0 (ld3 zeroD3) cl;
    do cu <- set_in vc 0 (ld3 zeroD3) cu;
    do cl <- set_in fc 0 (ld3 zeroD3) cl;
    do cu <- set_in fc 0 (ld3 zeroD3) cu;
    freezePoints rp' rfc' rvc' (cl, cu)
  | _, _, _ => None
  end.

(** Solver.cpp:215-256: class VariableBound.  The providers are kept as "is set"; their
    answers come with each query. *)
Record variable_bound := mkVB {
  vb_first : list dbl; vb_second : list dbl; vb_output : list dbl; vb_switch : dbl;
  vb_comRange : range; vb_sign : R; vb_trajectory : bool; vb_tolerance : bool }.

(** One call of get(time, isValid): the time, whether the range of the settings
    contains it, and what the two providers would answer. *)
Record query := mkQuery { q_time : dbl; q_inRange : bool; q_reference : list dbl * bool; q_tolerance : dbl * bool }.

Definition pick (o : variable_bound) (t : dbl) : list dbl := if dltb t (vb_switch o) then vb_first o else vb_second o.
Definition plus_constant (l : list dbl) (c : dbl) : list dbl := map (fun x => dadd x c) l.

(** Solver.cpp:258-285.  [None]: the reference has not three entries, or the segment
    is out of the vector (Eigen assertions). *)
Definition bound_get (o : variable_bound) (q : query) : option (variable_bound * (list dbl * bool)) :=
  if vb_trajectory o && vb_tolerance o && q_inRange q then
    let (ref, valid) := q_reference q in
    if negb valid then Some (o, (pick o (q_time q), false)) else
    let tolerance := if snd (q_tolerance q) then fst (q_tolerance q) else Fin 0 in
    let out := pick o (q_time q) in
    match vb_comRange o with
    | Some (off, _) =>
      if (length ref =? 3)%nat && (off + 3 <=? length out)%nat then
        let out := overwrite out off (plus_constant ref (dmul (Fin (vb_sign o)) tolerance)) in
        Some (mkVB (vb_first o) (vb_second o) out (vb_switch o) (vb_comRange o) (vb_sign o) (vb_trajectory o) (vb_tolerance o),
              (out, true))
      else None
    | None => None
    end
  else Some (o, (pick o (q_time q), true)).

Record bounds := mkBounds { b_stateLower : variable_bound; b_stateUpper : variable_bound;
                            b_controlLower : variable_bound; b_controlUpper : variable_bound }.

(** Solver.cpp:1128-1248, setBounds.  [stateSize], [controlSize]: sizes of the two
    structures; [minf], [pinf]: the infinities of the optimiser; [force]:
    st.forceMaximumDerivative. *)
Definition setBounds (minf pinf : dbl) (stateSize controlSize : nat) (vr : var_ranges) (st : settings) (force : D3) : option bounds :=
  let sl := repeat minf stateSize in
  let su := repeat pinf stateSize in
  let cl := repeat minf controlSize in
  let cu := repeat pinf controlSize in
  let L := vr_left vr in let Q := vr_right vr in
  do (sl, cl, cu) <- pointBounds force (velocityMaximumDerivative st) (positionPoints L) (forcePoints L)
                       (forceControlPoints L) (velocityControlPoints L) (sl, cl, cu);
  do (sl, cl, cu) <- pointBounds force (velocityMaximumDerivative st) (positionPoints Q) (forcePoints Q)
                       (forceControlPoints Q) (velocityControlPoints Q) (sl, cl, cu);
  do sl <- set_in (r_com vr) 2 [minimumCoMHeight st] sl;
  let a := maximumAngularMomentum st in
  do sl <- set_in (r_momentum vr) 3 [dneg a; dneg a; dneg a] sl;
  do su <- set_in (r_momentum vr) 3 [a; a; a] su;
  do (sl, su) <- jointBounds (r_joints vr) 0 (jointsLimits st) (sl, su);
  do (cl, cu) <- jointBounds (r_jointsVel vr) 0 (jointsVelocityLimits st) (cl, cu);
  do (cl2, cu2) <- freezePoints (positionPoints L) (forceControlPoints L) (velocityControlPoints L) (cl, cu);
  do (cl2, cu2) <- freezePoints (positionPoints Q) (forceControlPoints Q) (velocityControlPoints Q) (cl2, cu2);
  let switch := dmul (horizon st) (activeControlPercentage st) in
  let box := constrainTargetCoMPosition st in
  let traj := box && desiredCoMTrajectory st in
  let tol := box && targetCoMPositionTolerance st in
  Some (mkBounds (mkVB sl sl sl switch (r_com vr) (-1) traj tol)
                 (mkVB su su su switch (r_com vr) 1 traj tol)
                 (mkVB cl cl2 cl switch None 0 false false)
                 (mkVB cu cu2 cu switch None 0 false false)).
