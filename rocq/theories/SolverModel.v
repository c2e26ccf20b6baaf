(** Model of the life cycle of the solver (src/Solver.cpp:1250-1274, 1385-1775).
    The multiple shooting solver, the optimiser, the integrator and the problem of
    iDynTree are external: what they answer comes with each call, what they receive
    is recorded as events. *)
From Coq Require Import Reals String List Arith Bool Lra Lia.
From Verif Require Import SpecState SpecContainers StateModel Labeller Layout.
Import ListNotations.
Local Open Scope R_scope.

(** What the life cycle looks at in the settings. *)
Record psettings := mkPS { ps_valid : bool; ps_dofs : nat; ps_points : nat; ps_horizon : R }.
Definition pinfinity : R := 10 ^ 19.

(** Answers of the external objects during specifySettings, in the order of the
    calls. *)
Record specify_answers := mkSA {
  sa_load : bool; sa_dynamics : bool; sa_costs : bool; sa_constraints : bool; sa_horizon : bool;
  sa_step : bool; sa_period : bool; sa_optimizer : bool; sa_expired : bool; sa_integrator : bool; sa_bounds : bool;
  sa_possible : option (list R * list R); sa_timings : bool }.
(** ... and during solve. *)
Record solve_answers := mkVA {
  va_initial : bool; va_horizon : bool; va_guesses : bool; va_solve : bool;
  va_timings : option (list R * list R); va_solution : option (list (list R) * list (list R)) }.

Section Solver.
Context {Rot : Type} (idR : Rot) (asQuaternion : Rot -> V4) (fromQuaternion : V4 -> Rot).
(** Default constructed points, VectorDynSize::resize, uninitialised states and
    vectors, validity of empty ranges: see StateModel and Layout. *)
Context (freshPoint : point_state) (freshControl : point_control) (resizeV : nat -> list R -> list R).
Context (garbageS : state Rot) (garbageC : control) (junk : nat -> list R) (zok : bool).

Definition newState := state_new Rot idR freshPoint resizeV garbageS.
Definition newControl := control_new freshControl resizeV garbageC.

(** Where a guess handed to the shooting solver comes from: user objects (with the
    ranges they were wrapped with) or the defaults of solve. *)
Inductive guesses := UserGuesses (s c : nat) (vs vc : var_ranges) | DefaultGuesses (s : state Rot) (c : control) (vr : var_ranges).
(** What the external objects receive; the number identifies the object. *)
Inductive event :=
| EvInitialState (shooting : nat) (v : list R)
| EvHorizon (problem : nat) (t0 t1 : R)
| EvGuesses (shooting : nat) (g : guesses)
| EvSolve (shooting : nat)
| EvOptimizer (shooting : nat) (o : nat)
| EvIntegrator (shooting : nat) (i : option nat) (* [None]: the default one *).

(** Solver.cpp:290-327, the fields of Solver::Implementation. *)
Record solver := mkSolver {
  sv_settings : psettings; sv_prepared : bool; sv_firstRun : bool; sv_initial : state Rot;
  sv_S : labeller; sv_C : labeller; sv_ranges : option var_ranges;
  sv_problem : option nat; sv_shooting : option nat; sv_optimizer : option nat; sv_integrator : option nat;
  sv_plusInf : R; sv_minusInf : R;
  sv_stateGuess : option (nat * var_ranges); sv_controlGuess : option (nat * var_ranges);
  sv_stateTimings : list R; sv_controlTimings : list R;
  sv_unstructuredS : list (list R); sv_unstructuredC : list (list R);
  sv_optimalStates : list (state Rot); sv_optimalControls : list control;
  sv_next : nat (* next object identifier *) }.

(** Solver.cpp:1385-1401: [ipopt] is the identifier and the infinities of the Ipopt
    interface, when available. *)
Definition solver_new (garbage : psettings) (garbageFirst : bool) (emptyState : state Rot) (ipopt : option (nat * R * R)) : solver :=
  let (opt, infs) := match ipopt with Some (o, p, m) => (Some o, (p, m)) | None => (None, (pinfinity, - pinfinity)) end in
  mkSolver garbage false garbageFirst emptyState lab_init lab_init None None None opt None (fst infs) (snd infs)
           None None [] [] [] [] [] [] 0.

(** Solver.cpp:1417-1424. *)
Definition prepareInitial (d n : nat) (s : state Rot) : state Rot :=
  if state_checkSize Rot s 0 0 then state_zeroed Rot idR (state_resize Rot freshPoint resizeV d n s)
  else if negb (state_checkSize Rot s d n) then state_zeroed Rot idR (state_resize Rot freshPoint resizeV d n s)
  else s.

(** std::vector::resize(k, x). *)
Definition resize_with {A} (k : nat) (x : A) (l : list A) : list A := (firstn k l ++ repeat x (k - length l))%list.

(** Solver.cpp:1405-1595.  The stages follow the code; a stage that fails returns false
    and leaves what the previous ones have done. *)
Definition specifySettings (sv : solver) (ps : psettings) (an : specify_answers) : solver * list event * bool :=
  if negb (ps_valid ps) then (sv, [], false) else
  let d := ps_dofs ps in let n := ps_points ps in
  let '(S1, C1, vr) := setVariablesStructure zok d n (sv_S sv) (sv_C sv) in
  let id := sv_next sv in
  let upd := fun prepared first problem shooting st ct us uc os oc =>
    mkSolver ps prepared first (prepareInitial d n (sv_initial sv)) S1 C1 vr problem shooting
      (sv_optimizer sv) (sv_integrator sv) (sv_plusInf sv) (sv_minusInf sv) (sv_stateGuess sv) (sv_controlGuess sv)
      st ct us uc os oc (S id) in
  let keep := fun problem shooting =>
    upd (sv_prepared sv) (sv_firstRun sv) problem shooting (sv_stateTimings sv) (sv_controlTimings sv)
        (sv_unstructuredS sv) (sv_unstructuredC sv) (sv_optimalStates sv) (sv_optimalControls sv) in
  match vr with
  | None => (keep (sv_problem sv) (sv_shooting sv), [], false)
  | Some _ =>
  if negb (sa_load an) then (keep (sv_problem sv) (sv_shooting sv), [], false) else
  if negb (sa_dynamics an && sa_costs an && sa_constraints an) then (keep (Some id) (sv_shooting sv), [], false) else
  let t0 := stateTime (prepareInitial d n (sv_initial sv)) in
  let ev1 := [EvHorizon id t0 (t0 + ps_horizon ps)] in
  if negb (sa_horizon an) then (keep (Some id) (sv_shooting sv), ev1, false) else
  if negb (sa_step an && sa_period an) then (keep (Some id) (Some id), ev1, false) else
  let ev2 := (ev1 ++ match sv_optimizer sv with Some o => [EvOptimizer id o] | None => [] end)%list in
  if match sv_optimizer sv with Some _ => negb (sa_optimizer an) | None => false end
  then (keep (Some id) (Some id), ev2, false) else
  let integ := match sv_integrator sv with Some i => if sa_expired an then Some i else None | None => None end in
  let ev3 := (ev2 ++ [EvIntegrator id integ])%list in
  if negb (sa_integrator an) then (keep (Some id) (Some id), ev3, false) else
  if negb (sa_bounds an) then (keep (Some id) (Some id), ev3, false) else
  match sa_possible an with
  | None => (keep (Some id) (Some id), ev3, false)
  | Some (st, ct) =>
    if negb (sa_timings an) then
      (upd (sv_prepared sv) (sv_firstRun sv) (Some id) (Some id) st ct
           (sv_unstructuredS sv) (sv_unstructuredC sv) (sv_optimalStates sv) (sv_optimalControls sv), ev3, false)
    else
      (upd true true (Some id) (Some id) st ct
           (resize_with (length st) (junk (lab_size S1)) (sv_unstructuredS sv))
           (resize_with (length ct) (junk (lab_size C1)) (sv_unstructuredC sv))
           (resize_with (length st) (newState d n) (sv_optimalStates sv))
           (resize_with (length ct) (newControl d n) (sv_optimalControls sv)), ev3, true)
  end end.

(** Solver.cpp:1597-1613. *)
Definition setInitialState (sv : solver) (s : state Rot) : solver * bool :=
  if negb (sv_prepared sv) then (sv, false) else
  if negb (state_sameSize Rot (sv_initial sv) s) then (sv, false) else
  (mkSolver (sv_settings sv) (sv_prepared sv) (sv_firstRun sv) s (sv_S sv) (sv_C sv) (sv_ranges sv) (sv_problem sv)
     (sv_shooting sv) (sv_optimizer sv) (sv_integrator sv) (sv_plusInf sv) (sv_minusInf sv) (sv_stateGuess sv)
     (sv_controlGuess sv) (sv_stateTimings sv) (sv_controlTimings sv) (sv_unstructuredS sv) (sv_unstructuredC sv)
     (sv_optimalStates sv) (sv_optimalControls sv) (sv_next sv), true).

Definition with_guesses (sv : solver) (sg cg : option (nat * var_ranges)) (first : bool) (st ct : list R)
  (us uc : list (list R)) (os : list (state Rot)) (oc : list control) : solver :=
  mkSolver (sv_settings sv) (sv_prepared sv) first (sv_initial sv) (sv_S sv) (sv_C sv) (sv_ranges sv) (sv_problem sv)
     (sv_shooting sv) (sv_optimizer sv) (sv_integrator sv) (sv_plusInf sv) (sv_minusInf sv) sg cg
     st ct us uc os oc (sv_next sv).

(** Solver.cpp:1615-1639; a user object is an identifier, [None] is the null pointer.
    [None]: the ranges hold unspecified values (an earlier call failed half way). *)
Definition setGuesses (sv : solver) (s c : option nat) : option (solver * bool) :=
  if negb (sv_prepared sv) then Some (sv, false) else
  match s, c with
  | None, _ | _, None => Some (sv, false)
  | Some s, Some c =>
    match sv_ranges sv with
    | None => None
    | Some vr => Some (with_guesses sv (Some (s, vr)) (Some (c, vr)) (sv_firstRun sv) (sv_stateTimings sv) (sv_controlTimings sv)
                         (sv_unstructuredS sv) (sv_unstructuredC sv) (sv_optimalStates sv) (sv_optimalControls sv), true)
    end
  end.

Definition with_tools (sv : solver) (o i : option nat) (p m : R) : solver :=
  mkSolver (sv_settings sv) (sv_prepared sv) (sv_firstRun sv) (sv_initial sv) (sv_S sv) (sv_C sv) (sv_ranges sv) (sv_problem sv)
     (sv_shooting sv) o i p m (sv_stateGuess sv) (sv_controlGuess sv) (sv_stateTimings sv) (sv_controlTimings sv)
     (sv_unstructuredS sv) (sv_unstructuredC sv) (sv_optimalStates sv) (sv_optimalControls sv) (sv_next sv).

(** Solver.cpp:1641-1662: an optimiser is an identifier with its infinities, [ok] the
    answer of the shooting solver.  [None]: null shooting solver dereferenced. *)
Definition setOptimizer (sv : solver) (o : option (nat * R * R)) (ok : bool) : option (solver * list event * bool) :=
  match o with
  | None => Some (sv, [], false)
  | Some (o, p, m) =>
    if sv_prepared sv then
      match sv_shooting sv with
      | None => None
      | Some id => if negb ok then Some (sv, [EvOptimizer id o], false)
                   else Some (with_tools sv (Some o) (sv_integrator sv) p m, [EvOptimizer id o], true)
      end
    else Some (with_tools sv (Some o) (sv_integrator sv) p m, [], true)
  end.
(** Solver.cpp:1664-1681. *)
Definition setIntegrator (sv : solver) (i : option nat) (ok : bool) : option (solver * list event * bool) :=
  match i with
  | None => Some (sv, [], false)
  | Some i =>
    if sv_prepared sv then
      match sv_shooting sv with
      | None => None
      | Some id => if negb ok then Some (sv, [EvIntegrator id (Some i)], false)
                   else Some (with_tools sv (sv_optimizer sv) (Some i) (sv_plusInf sv) (sv_minusInf sv), [EvIntegrator id (Some i)], true)
      end
    else Some (with_tools sv (sv_optimizer sv) (Some i) (sv_plusInf sv) (sv_minusInf sv), [], true)
  end.

(** Solver.cpp:1259-1273, fillSolutionVectors: [None] when an element past the end is
    used (fewer vectors than times, vectors or states of another size). *)
Fixpoint fill_states (vr : var_ranges) (ts : list R) (vs : list (list R)) (old : list (state Rot)) : option (list (state Rot)) :=
  match ts with
  | [] => Some old
  | t :: ts' =>
    match vs, old with
    | v :: vs', s :: old' =>
      do s <- setStateFromVariables fromQuaternion vr v t s;
      do r <- fill_states vr ts' vs' old'; Some (s :: r)
    | _, _ => None
    end
  end.
Fixpoint fill_controls (vr : var_ranges) (ts : list R) (vs : list (list R)) (old : list control) : option (list control) :=
  match ts with
  | [] => Some old
  | t :: ts' =>
    match vs, old with
    | v :: vs', s :: old' =>
      do s <- setControlFromVariables vr v t s;
      do r <- fill_controls vr ts' vs' old'; Some (s :: r)
    | _, _ => None
    end
  end.
Definition fillSolutionVectors (ps : psettings) (vr : var_ranges) (st ct : list R) (us uc : list (list R))
  (os : list (state Rot)) (oc : list control) : option (list (state Rot) * list control) :=
  do os <- fill_states vr st us (resize_with (length st) (newState (ps_dofs ps) (ps_points ps)) os);
  do oc <- fill_controls vr ct uc (resize_with (length ct) (newControl (ps_dofs ps) (ps_points ps)) oc);
  Some (os, oc).

(** Solver.cpp:1683-1765.  The two output parameters are assigned from optimalStates
    and optimalControls only on success. *)
Definition solve (sv : solver) (an : solve_answers) : option (solver * list event * bool) :=
  if negb (sv_prepared sv) then Some (sv, [], false) else
  let ps := sv_settings sv in
  if negb (state_checkSize Rot (sv_initial sv) (ps_dofs ps) (ps_points ps)) then Some (sv, [], false) else
  match sv_ranges sv, sv_shooting sv, sv_problem sv with
  | Some vr, Some id, Some pid =>
    do v <- fillInitialState asQuaternion junk vr (sv_initial sv);
    let ev1 := [EvInitialState id v] in
    if negb (va_initial an) then Some (sv, ev1, false) else
    let t0 := stateTime (sv_initial sv) in
    let ev2 := (ev1 ++ [EvHorizon pid t0 (t0 + ps_horizon ps)])%list in
    if negb (va_horizon an) then Some (sv, ev2, false) else
    let g := match sv_stateGuess sv, sv_controlGuess sv with
             | Some (s, vs), Some (c, vc) => Some (UserGuesses s c vs vc)
             | _, _ => if sv_firstRun sv then Some (DefaultGuesses (sv_initial sv) (newControl (ps_dofs ps) (ps_points ps)) vr) else None
             end in
    let ev3 := (ev2 ++ match g with Some g => [EvGuesses id g] | None => [] end)%list in
    if match g with Some _ => negb (va_guesses an) | None => false end then Some (sv, ev3, false) else
    let ev4 := (ev3 ++ [EvSolve id])%list in
    if negb (va_solve an) then Some (sv, ev4, false) else
    match va_timings an with
    | None => Some (sv, ev4, false)
    | Some (st, ct) =>
      match va_solution an with
      | None => Some (with_guesses sv (sv_stateGuess sv) (sv_controlGuess sv) (sv_firstRun sv) st ct (sv_unstructuredS sv)
                        (sv_unstructuredC sv) (sv_optimalStates sv) (sv_optimalControls sv), ev4, false)
      | Some (us, uc) =>
        do (os, oc) <- fillSolutionVectors ps vr st ct us uc (sv_optimalStates sv) (sv_optimalControls sv);
        Some (with_guesses sv None None false st ct us uc os oc, ev4, true)
      end
    end
  | _, _, _ => None
  end.

(** ** Histories. *)
Inductive call :=
| CallSpecify (ps : psettings) (an : specify_answers)
| CallInitialState (s : state Rot)
| CallGuesses (s c : option nat)
| CallOptimizer (o : option (nat * R * R)) (ok : bool)
| CallIntegrator (i : option nat) (ok : bool)
| CallSolve (an : solve_answers).

Definition step (sv : solver) (c : call) : option (solver * list event * bool) :=
  match c with
  | CallSpecify ps an => Some (specifySettings sv ps an)
  | CallInitialState s => let (sv', b) := setInitialState sv s in Some (sv', [], b)
  | CallGuesses s c => do (sv', b) <- setGuesses sv s c; Some (sv', [], b)
  | CallOptimizer o ok => setOptimizer sv o ok
  | CallIntegrator i ok => setIntegrator sv i ok
  | CallSolve an => solve sv an
  end.

(** A history: the calls with their results, oldest first. *)
Fixpoint run (sv : solver) (cs : list call) : option (solver * list (call * bool)) :=
  match cs with
  | [] => Some (sv, [])
  | c :: rest =>
    do (sv1, _, b) <- step sv c;
    do (sv2, tr) <- run sv1 rest; Some (sv2, (c, b) :: tr)
  end.
End Solver.
