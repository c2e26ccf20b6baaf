(** C34, C35, C49: life cycle of the solver, guesses, reconstruction of the solution. *)
From Coq Require Import Reals String List Arith Bool Lra Lia.
From Verif Require Import SpecState SpecGeometry SpecReference SpecContainers StateModel Labeller LabellerProofs Layout LayoutProofs StateVectorProofs PropState SolverModel SolverProofs.
Import ListNotations.
Local Open Scope nat_scope.

Section Solver.
Context {Rot : Type} (idR : Rot) (asQ : Rot -> V4) (fromQ : V4 -> Rot).
Context (fp : point_state) (fc : point_control) (resizeV : nat -> list R -> list R).
Context (gS : state Rot) (gC : control) (junk : nat -> list R) (zok : bool).
(** The solver as constructed: an empty initial state, any garbage, any optimiser. *)
Context (garb : psettings) (gf : bool) (empty : state Rot) (ipopt : option (nat * R * R)).
Notation fresh := (solver_new garb gf empty ipopt).
Notation runR := (run idR asQ fromQ fp fc resizeV gS gC junk zok).
Notation specifyR := (specifySettings idR fp fc resizeV gS gC junk zok).
Notation solveR := (solve idR asQ fromQ fp fc resizeV gS gC junk).

(** ** C34 *)
(** Until a call of specifySettings has succeeded, the calls that need it are refused
    and have no effect at all. *)
Theorem C34_refused_before_settings : forall cs sv tr, runR fresh cs = Some (sv, tr) -> was_prepared tr = false ->
  (forall s, setInitialState sv s = (sv, false)) /\
  (forall s c, setGuesses sv s c = Some (sv, false)) /\
  (forall an, solveR sv an = Some (sv, [], false)).
Proof.
  intros cs sv tr E H. pose proof (general_run _ _ _ _ _ _ _ _ _ _ _ _ _ _ _ _ _ E) as (P & _). rewrite H in P.
  split; [|split]; intros; [unfold setInitialState | unfold setGuesses | unfold solve]; rewrite P; reflexivity.
Qed.
(** Invalid settings and null pointers are refused without effect, at any moment. *)
Theorem C34_invalid_arguments_refused : forall (sv : @solver Rot),
  (forall ps an, ps_valid ps = false -> specifyR sv ps an = (sv, [], false)) /\
  (forall s c, s = None \/ c = None -> setGuesses sv s c = Some (sv, false)) /\
  (forall ok, setOptimizer sv None ok = Some (sv, [], false)) /\
  (forall ok, setIntegrator sv None ok = Some (sv, [], false)).
Proof.
  intros sv. split; [|split; [|split]].
  - intros ps an H. unfold specifySettings. now rewrite H.
  - intros s c H. unfold setGuesses. destruct (sv_prepared sv); cbn [negb]; [|reflexivity]. destruct s, c; auto. destruct H; discriminate.
  - reflexivity.
  - reflexivity.
Qed.
(** A call of specifySettings succeeds only when every stage does; then the solver is
    ready, works on the objects just created and forgets that it has already solved. *)
Theorem C34_settings_accepted : forall (sv sv' : @solver Rot) ps an ev, specifyR sv ps an = (sv', ev, true) ->
  ps_valid ps = true /\ sv_prepared sv' = true /\ sv_firstRun sv' = true /\ sv_settings sv' = ps /\
  sv_problem sv' = sv_shooting sv' /\ sv_shooting sv' = Some (sv_next sv) /\
  sv_ranges sv' = Some (layout (ps_dofs ps) (ps_points ps)) /\
  sa_load an = true /\ sa_dynamics an = true /\ sa_costs an = true /\ sa_constraints an = true /\ sa_horizon an = true /\
  sa_step an = true /\ sa_period an = true /\ (sv_optimizer sv <> None -> sa_optimizer an = true) /\ sa_integrator an = true /\
  sa_bounds an = true /\ sa_possible an <> None /\ sa_timings an = true.
Proof.
  intros sv sv' ps an ev E. unfold specifySettings in E.
  destruct (ps_valid ps) eqn:EV; cbn [negb] in E; [|discriminate].
  destruct (setVariablesStructure zok (ps_dofs ps) (ps_points ps) (sv_S sv) (sv_C sv)) as [[S1 C1] vr] eqn:ES.
  destruct vr as [vr|]; [|discriminate].
  destruct (setVariablesStructure_some _ _ _ _ _ _ _ _ ES) as (-> & _).
  destruct (sa_load an); cbn [negb] in E; [|discriminate].
  destruct (sa_dynamics an); cbn [negb andb] in E; [|discriminate].
  destruct (sa_costs an); cbn [negb andb] in E; [|discriminate].
  destruct (sa_constraints an); cbn [negb andb] in E; [|discriminate].
  destruct (sa_horizon an); cbn [negb andb] in E; [|discriminate].
  destruct (sa_step an); cbn [negb andb] in E; [|discriminate].
  destruct (sa_period an); cbn [negb andb] in E; [|discriminate].
  destruct (match sv_optimizer sv with Some _ => negb (sa_optimizer an) | None => false end) eqn:EO; [discriminate|].
  destruct (sa_integrator an); cbn [negb andb] in E; [|discriminate].
  destruct (sa_bounds an); cbn [negb andb] in E; [|discriminate].
  destruct (sa_possible an) as [[st ct]|]; [|discriminate].
  destruct (sa_timings an); cbn [negb andb] in E; [|discriminate].
  injection E as <- <-. cbn [sv_prepared sv_firstRun sv_settings sv_problem sv_shooting sv_ranges].
  repeat (split; [auto; fail|]). split.
  - intros HO. destruct (sv_optimizer sv); [now destruct (sa_optimizer an) | congruence].
  - repeat (split; [auto; fail|]). split; [discriminate | reflexivity].
Qed.

(** The optimiser in force (the last one accepted, else the one of the constructor) and
    the integrator in force (the last one accepted) are what accepted settings give to
    the new external solver, once each; an integrator still owned by another problem is
    replaced by the default one, and so is a missing one. *)
Definition is_optimizer (e : @event Rot) : bool := match e with EvOptimizer _ _ => true | _ => false end.
Definition is_integrator (e : @event Rot) : bool := match e with EvIntegrator _ _ => true | _ => false end.
Theorem C34_tools_used : forall cs sv tr ps an sv' ev, runR fresh cs = Some (sv, tr) -> specifyR sv ps an = (sv', ev, true) ->
  exists id, sv_shooting sv' = Some id /\
    filter is_optimizer ev = (match last_optimizer ipopt tr with Some (o, _, _) => [EvOptimizer id o] | None => [] end) /\
    filter is_integrator ev = [EvIntegrator id (match last_integrator tr with Some i => if sa_expired an then Some i else None | None => None end)].
Proof.
  intros cs sv tr ps an sv' ev E ES.
  pose proof (C34_settings_accepted _ _ _ _ _ ES) as ACC. destruct ACC as (_ & _ & _ & _ & _ & SH & _).
  destruct (tools_run _ _ _ _ _ _ _ _ _ _ _ _ _ _ _ _ _ E) as (TO & TI & _ & _).
  exists (sv_next sv). split; [exact SH|]. unfold specifySettings in ES. rewrite TO, TI in ES.
  repeat lazymatch type of ES with
  | (match ?c with _ => _ end) = _ => destruct c; try discriminate ES
  end.
  injection ES as _ <-. destruct (last_optimizer ipopt tr) as [[[o p] m]|]; cbn [option_map fst app filter is_optimizer is_integrator]; split; reflexivity.
Qed.
(** A non null optimiser is accepted unless the external solver in use refuses it; it
    reaches it at once, exactly when there is one in use.  Same for an integrator. *)
Theorem C34_tools_accepted : forall cs sv tr, runR fresh cs = Some (sv, tr) ->
  (forall o p m ok, exists sv' ev b, setOptimizer sv (Some (o, p, m)) ok = Some (sv', ev, b) /\
     b = (if was_prepared tr then ok else true) /\
     (was_prepared tr = true -> exists id, sv_shooting sv = Some id /\ ev = [EvOptimizer id o]) /\ (was_prepared tr = false -> ev = []) /\
     (b = true -> sv_plusInf sv' = p /\ sv_minusInf sv' = m) /\ (b = false -> sv' = sv)) /\
  (forall i ok, exists sv' ev b, setIntegrator sv (Some i) ok = Some (sv', ev, b) /\
     b = (if was_prepared tr then ok else true) /\
     (was_prepared tr = true -> exists id, sv_shooting sv = Some id /\ ev = [EvIntegrator id (Some i)]) /\ (was_prepared tr = false -> ev = []) /\
     (b = false -> sv' = sv)).
Proof.
  intros cs sv tr E. pose proof (general_run _ _ _ _ _ _ _ _ _ _ _ _ _ _ _ _ _ E) as (P & _ & _ & SH & _).
  split; [intros o p m ok; unfold setOptimizer | intros i ok; unfold setIntegrator]; rewrite <- P;
    (destruct (sv_prepared sv); [destruct (sv_shooting sv) as [id|]; [|destruct (proj1 (SH eq_refl) eq_refl)]; destruct ok|]);
    cbn [negb]; eexists _, _, _; (split; [reflexivity|]); repeat split; try discriminate; eauto.
Qed.
(** The infinities used for unbounded variables are those of the optimiser in force. *)
Theorem C34_infinities : forall cs sv tr, runR fresh cs = Some (sv, tr) ->
  (sv_plusInf sv, sv_minusInf sv) = match last_optimizer ipopt tr with Some (_, p, m) => (p, m) | None => (pinfinity, - pinfinity)%R end.
Proof.
  intros cs sv tr E. destruct (tools_run _ _ _ _ _ _ _ _ _ _ _ _ _ _ _ _ _ E) as (_ & _ & -> & ->).
  destruct (last_optimizer ipopt tr) as [[[? ?] ?]|]; reflexivity.
Qed.

(** ** Histories that keep the number of joints [d] and of points per foot [n]. *)
Section SameSizes.
Context (d n : nat).
Hypothesis nontrivial : (d, n) <> (0, 0).
Hypothesis resizeV_size : forall k l, length (resizeV k l) = k.
Hypothesis junk_size : forall k, length (junk k) = k.
Hypothesis empty_size : state_sized empty 0 0.

(** No sequence of calls in any order reads or writes out of bounds or dereferences a
    null pointer. *)
Theorem C34_no_undefined_behaviour : forall cs, Forall (call_ok d n) cs -> exists sv tr, runR fresh cs = Some (sv, tr).
Proof.
  intros cs H. destruct (uniform_run idR asQ fromQ fp fc resizeV gS gC junk zok d n nontrivial resizeV_size junk_size garb gf empty ipopt cs empty_size H)
    as (sv & tr & E & _). eauto.
Qed.

(** The initial state in force: the last one accepted, else a zero state. *)
Theorem C34_initial_state : forall cs sv tr, Forall (call_ok d n) cs -> runR fresh cs = Some (sv, tr) -> was_prepared tr = true ->
  state_sized (sv_initial sv) d n /\
  (match last_initial tr with Some s => sv_initial sv = s | None => state_zero idR (sv_initial sv) end) /\
  (forall s, state_sized s d n -> exists sv', setInitialState sv s = (sv', true) /\ sv_initial sv' = s) /\
  (forall s, ~ state_sized s d n -> setInitialState sv s = (sv, false)).
Proof.
  intros cs sv tr HF E HP.
  destruct (uniform_run idR asQ fromQ fp fc resizeV gS gC junk zok d n nontrivial resizeV_size junk_size garb gf empty ipopt cs empty_size HF)
    as (sv' & tr' & E' & U & _). rewrite E in E'; injection E' as <- <-.
  pose proof (general_run _ _ _ _ _ _ _ _ _ _ _ _ _ _ _ _ _ E) as (P & _ & _ & _ & ST). rewrite HP in P.
  destruct U as (_ & _ & UI & _).
  destruct UI as [(_ & X & _)|(UI & UZ)]. { rewrite X in ST. congruence. }
  split; [exact UI|]. split; [exact UZ|]. destruct UI as (Y1 & Y2 & Y3).
  split; intros s Hs; unfold setInitialState; rewrite P; cbn [negb].
  - assert (ES : state_sameSize Rot (sv_initial sv) s = true).
    { apply sameSize_iff. destruct Hs as (A & B & C). intuition congruence. }
    rewrite ES. cbn [negb]. eexists. split; reflexivity.
  - destruct (state_sameSize Rot (sv_initial sv) s) eqn:ES; [|reflexivity].
    exfalso. apply Hs. apply sameSize_iff in ES. destruct ES as (A & B & C). unfold state_sized. intuition congruence.
Qed.

(** What the external solver receives from one call of solve: the vector of the initial
    state, the horizon starting at its time, at most one guess, then the request to
    solve; a failure stops the sequence and leaves the last solution in place. *)
Theorem C34_solve_sequence : forall cs sv tr an, Forall (call_ok d n) cs -> runR fresh cs = Some (sv, tr) -> was_prepared tr = true ->
  contract d n an ->
  exists id pid guess sv' ev b, solveR sv an = Some (sv', ev, b) /\
    let t0 := stateTime (sv_initial sv) in
    let sequence := [EvInitialState id (state_vector asQ (sv_initial sv)); EvHorizon pid t0 (t0 + ps_horizon (sv_settings sv))%R]
                    ++ guess ++ [EvSolve id] in
    length guess <= 1 /\
    (b = true -> ev = sequence) /\
    (b = false -> (exists k, ev = firstn k sequence) /\ sv_optimalStates sv' = sv_optimalStates sv /\ sv_optimalControls sv' = sv_optimalControls sv) /\
    (va_initial an = true -> va_horizon an = true -> va_guesses an = true -> va_solve an = true ->
     va_timings an <> None -> va_solution an <> None -> b = true).
Proof.
  intros cs sv tr an HF E HP HC.
  destruct (uniform_run idR asQ fromQ fp fc resizeV gS gC junk zok d n nontrivial resizeV_size junk_size garb gf empty ipopt cs empty_size HF)
    as (sv1 & tr' & E' & U & _). rewrite E in E'; injection E' as <- <-.
  pose proof (general_run _ _ _ _ _ _ _ _ _ _ _ _ _ _ _ _ _ E) as G. assert (P := G). destruct P as (P & _). rewrite HP in P.
  destruct (solve_spec idR asQ fromQ fp fc resizeV gS gC junk d n resizeV_size junk_size tr sv an G U HC P)
    as (id & pid & sv' & ev & b & ES & X1 & X2 & X).
  destruct X as (_ & _ & _ & _ & _ & _ & _ & X3).
  eexists id, pid, _, sv', ev, b. split; [exact ES|]. cbv zeta. split; [|split; [|split; [|exact X3]]].
  2: { intros Hb. exact (proj1 (X1 Hb)). }
  2: { intros Hb. destruct (X2 Hb) as (Y1 & Y2 & Y3 & _). auto. }
  destruct (guess_of _ _ _ _ _ _ _); cbn; lia.
Qed.

(** ** C35: the guess used by solve.  A guess given and not consumed by a successful
    solution is used; otherwise, if nothing has been solved since the settings were
    accepted, the initial state held constant with zero controls; otherwise none (the
    external solver goes on from its previous solution). *)
Definition is_guess (e : @event Rot) : bool := match e with EvGuesses _ _ => true | _ => false end.
Theorem C35_guess_used : forall cs sv tr an sv' ev b id, Forall (call_ok d n) cs -> runR fresh cs = Some (sv, tr) ->
  contract d n an -> solveR sv an = Some (sv', ev, b) -> In (EvSolve id) ev ->
  exists zero, control_zero zero /\ control_sized zero d n /\
    filter is_guess ev =
    match pending tr with
    | Some (s, c) => [EvGuesses id (UserGuesses s c (layout d n) (layout d n))]
    | None => if never_solved tr then [EvGuesses id (DefaultGuesses (sv_initial sv) zero (layout d n))] else []
    end.
Proof.
  intros cs sv tr an sv' ev b id HF E HC ES HI.
  destruct (uniform_run idR asQ fromQ fp fc resizeV gS gC junk zok d n nontrivial resizeV_size junk_size garb gf empty ipopt cs empty_size HF)
    as (sv1 & tr' & E' & U & _). rewrite E in E'; injection E' as <- <-.
  pose proof (general_run _ _ _ _ _ _ _ _ _ _ _ _ _ _ _ _ _ E) as G. assert (P := G). destruct P as (P & _).
  destruct (sv_prepared sv) eqn:EP.
  2: { unfold solve in ES. rewrite EP in ES. injection ES as <- <- <-. destruct HI. }
  exists (newControl fc resizeV gC d n). split; [apply C46_control_zero|]. split; [apply (newControl_sized fc resizeV gC d n resizeV_size)|].
  destruct (solve_spec idR asQ fromQ fp fc resizeV gS gC junk d n resizeV_size junk_size tr sv an G U HC EP)
    as (id' & pid' & sv2 & ev2 & b2 & ES2 & X1 & X2 & _). rewrite ES in ES2. injection ES2 as <- <- <-.
  set (g0 := guess_of fc resizeV gC d n tr sv) in *.
  assert (EV : id = id' /\ filter is_guess ev = match g0 with Some g => [EvGuesses id' g] | None => [] end).
  { destruct b.
    - destruct (X1 eq_refl) as (-> & _). clear -HI. destruct g0; cbn [app In filter is_guess] in *; split; auto;
        repeat destruct HI as [HI|HI]; try discriminate; try contradiction; congruence.
    - destruct (X2 eq_refl) as ((k & ->) & _). clear -HI. destruct g0; destruct k as [|[|[|[|k]]]]; cbn [firstn app In filter is_guess] in *;
        rewrite ?firstn_nil in *; cbn [In filter] in *; try (split; auto);
        repeat destruct HI as [HI|HI]; try discriminate; try contradiction; congruence. }
  destruct EV as (<- & ->). unfold g0, guess_of. destruct (pending tr) as [[s c]|]; [reflexivity|]. destruct (never_solved tr); reflexivity.
Qed.
(** A successful solution consumes the guess; a failed one does not. *)
Theorem C35_consumed_by_success : forall cs sv tr an sv' ev b, runR fresh cs = Some (sv, tr) -> solveR sv an = Some (sv', ev, b) ->
  exists tr', runR fresh (cs ++ [CallSolve an]) = Some (sv', tr') /\
    pending tr' = (if b then None else pending tr) /\ never_solved tr' = (if b then false else never_solved tr) /\
    (b = true -> sv_stateGuess sv' = None /\ sv_controlGuess sv' = None).
Proof.
  intros cs sv tr an sv' ev b E ES. exists (tr ++ [(CallSolve an, b)]).
  assert (E' : runR fresh (cs ++ [CallSolve an]) = Some (sv', tr ++ [(CallSolve an, b)])).
  { rewrite run_snoc, E. cbn [bind step]. rewrite ES. reflexivity. }
  pose proof (pending_snoc tr (CallSolve an, b)) as Z1. pose proof (fresh_snoc tr (CallSolve an, b)) as Z2.
  split; [exact E'|]. split; [refine (eq_trans Z1 _); destruct b; reflexivity|]. split; [refine (eq_trans Z2 _); destruct b; reflexivity|].
  intros ->. pose proof (general_run _ _ _ _ _ _ _ _ _ _ _ _ _ _ _ _ _ E') as (_ & GG & _). cbv [guess_ok] in GG. assert (Z3 : pending (tr ++ [(CallSolve an, true)]) = None) by (refine (eq_trans Z1 _); reflexivity). rewrite Z3 in GG. exact GG.
Qed.

(** ** C49: after a successful solve the solution is, time by time, the one of the
    optimiser; a failed solve keeps the previous one. *)
Theorem C49_solution : forall cs sv tr an sv' ev, Forall (call_ok d n) cs -> runR fresh cs = Some (sv, tr) ->
  contract d n an -> solveR sv an = Some (sv', ev, true) ->
  exists st ct us uc, va_timings an = Some (st, ct) /\ va_solution an = Some (us, uc) /\
    pointwise (represents fromQ) us st (sv_optimalStates sv') /\ pointwise representsC uc ct (sv_optimalControls sv') /\
    Forall (fun s => state_sized s d n) (sv_optimalStates sv') /\ Forall (fun c => control_sized c d n) (sv_optimalControls sv').
Proof.
  intros cs sv tr an sv' ev HF E HC ES.
  destruct (uniform_run idR asQ fromQ fp fc resizeV gS gC junk zok d n nontrivial resizeV_size junk_size garb gf empty ipopt cs empty_size HF)
    as (sv1 & tr' & E' & U & _). rewrite E in E'; injection E' as <- <-.
  pose proof (general_run _ _ _ _ _ _ _ _ _ _ _ _ _ _ _ _ _ E) as G. assert (P := G). destruct P as (P & _).
  destruct (sv_prepared sv) eqn:EP.
  2: { unfold solve in ES. rewrite EP in ES. discriminate. }
  destruct (solve_spec idR asQ fromQ fp fc resizeV gS gC junk d n resizeV_size junk_size tr sv an G U HC EP)
    as (id' & pid' & sv2 & ev2 & b2 & ES2 & X1 & _ & _ & _ & _ & F1 & F2 & _). rewrite ES in ES2. injection ES2 as <- <- <-.
  destruct (X1 eq_refl) as (_ & _ & _ & _ & _ & st & ct & us & uc & A & B & C & D). exists st, ct, us, uc. repeat (split; [assumption|]); assumption.
Qed.
End SameSizes.
End Solver.

(** ** A concrete history. *)
Definition wit_resize (k : nat) (_ : list R) : list R := repeat 0%R k.
Definition wit_junk (k : nat) : list R := repeat 0%R k.
Definition wit_point : point_state := mkPointState (0,0,0)%R (0,0,0)%R.
Definition wit_pcontrol : point_control := mkPointControl (0,0,0)%R (0,0,0)%R.
Definition wit_state : state unit := mkState [] [] ((0,0,0),(0,0,0))%R (0,0,0)%R (0,0,0)%R tt [] 0%R.
Definition wit_control : control := mkControl [] [] (0,0,0)%R (0,0,0,0)%R [] 0%R.
Notation wrun := (run tt (fun _ => (1,0,0,0)%R) (fun _ => tt) wit_point wit_pcontrol wit_resize wit_state wit_control wit_junk true).
Notation wfresh := (solver_new (mkPS false 0 0 0%R) false wit_state None).
Definition good (ts tc : list R) : specify_answers := mkSA true true true true true true true true true true true (Some (ts, tc)) true.
(** Stops at the costs. *)
Definition bad : specify_answers := mkSA true true false true true true true true true true true None true.
Definition solved (d n : nat) : solve_answers :=
  mkVA true true true true (Some ([1%R], [0%R])) (Some ([repeat 5%R (12 * n + 16 + d)], [repeat 7%R (12 * n + 7 + d)])).
Definition st11 (t : R) : state unit := mkState [wit_point] [wit_point] ((0,0,0),(0,0,0))%R (0,0,0)%R (0,0,0)%R tt [3%R] t.

Example C34_C35_C49_nonvacuous : exists cs sv tr,
  Forall (call_ok 1 1) cs /\ contract 1 1 (solved 1 1) /\ state_sized wit_state 0 0 /\
  wrun wfresh cs = Some (sv, tr) /\ was_prepared tr = true /\ pending tr = Some (8, 9) /\ never_solved tr = false /\
  last_initial tr = Some (st11 2) /\ length (sv_optimalStates sv) = 1 /\
  exists sv' ev, solve tt (fun _ => (1,0,0,0)%R) (fun _ => tt) wit_point wit_pcontrol wit_resize wit_state wit_control wit_junk sv (solved 1 1) = Some (sv', ev, true).
Proof.
  exists [CallSpecify (mkPS true 1 1 1%R) (good [0%R] [0%R]); CallSolve (solved 1 1); CallInitialState (st11 2); CallGuesses (Some 8) (Some 9)].
  assert (C : contract 1 1 (solved 1 1)).
  { intros st ct us uc E1 E2. injection E1 as <- <-. injection E2 as <- <-. cbn. repeat split; repeat constructor. }
  eexists _, _. split; [repeat (apply Forall_cons; [first [exact C | exact I | repeat constructor]|]); apply Forall_nil|]. split; [exact C|]. split; [repeat split|].
  split; [cbv -[Rplus Rmult Rdiv sqrt IZR]; reflexivity|].
  split; [reflexivity|]. split; [reflexivity|]. split; [reflexivity|]. split; [reflexivity|]. split; [reflexivity|].
  eexists _, _. cbv -[Rplus Rmult Rdiv sqrt IZR Rlt_dec]. reflexivity.
Qed.

Example C34_tools_nonvacuous : exists cs sv tr sv' ev, wrun wfresh cs = Some (sv, tr) /\ map snd tr = [true; true; true; false] /\
  option_map (fun x => fst (fst x)) (last_optimizer None tr) = Some 3 /\ last_integrator tr = Some 6 /\
  specifySettings tt wit_point wit_pcontrol wit_resize wit_state wit_control wit_junk true sv (mkPS true 1 1 1%R) (good [] []) = (sv', ev, true) /\
  In (EvOptimizer 1 3) ev /\ In (EvIntegrator 1 (Some 6)) ev.
Proof.
  exists [CallOptimizer (Some (3, 5%R, (-5)%R)) false; CallSpecify (mkPS true 1 1 1%R) (good [] []); CallIntegrator (Some 6) true; CallOptimizer (Some (4, 9%R, (-9)%R)) false].
  eexists _, _, _, _. split; [cbv -[Rplus Rmult Rdiv sqrt IZR]; reflexivity|]. split; [reflexivity|]. split; [reflexivity|]. split; [reflexivity|].
  split; [cbv -[Rplus Rmult Rdiv sqrt IZR]; reflexivity|]. cbn. tauto.
Qed.

(** ** Findings. *)
(** A call of specifySettings that fails after the first check leaves the solver ready:
    solve goes on with the new settings and variables, the horizon is set on the new
    problem, and the old external solver (built on the old problem) is run. *)
Theorem C34_failed_settings_leave_a_mixture_refuted : exists cs sv tr, wrun wfresh cs = Some (sv, tr) /\
  map snd tr = [true; false] /\ sv_prepared sv = true /\ sv_problem sv <> sv_shooting sv /\
  ps_points (sv_settings sv) = 0 /\
  exists sv' ev p q t0 t1, solve tt (fun _ => (1,0,0,0)%R) (fun _ => tt) wit_point wit_pcontrol wit_resize wit_state wit_control wit_junk sv (solved 1 0) = Some (sv', ev, true) /\
    In (EvHorizon p t0 t1) ev /\ In (EvSolve q) ev /\ p <> q.
Proof.
  exists [CallSpecify (mkPS true 1 1 1%R) (good [] []); CallSpecify (mkPS true 1 0 1%R) bad].
  eexists _, _. split; [cbv -[Rplus Rmult Rdiv sqrt IZR]; reflexivity|]. split; [reflexivity|]. split; [reflexivity|].
  split; [cbn; discriminate|]. split; [reflexivity|].
  eexists _, _, 1, 0, _, _. split; [cbv -[Rplus Rmult Rdiv sqrt IZR Rlt_dec]; reflexivity|].
  split; [right; left; reflexivity|]. split; [cbn; tauto | discriminate].
Qed.
(** A guess given before the settings change is used later with the variable structure
    of the old settings. *)
Theorem C35_guess_keeps_old_structure_refuted : exists cs sv tr, wrun wfresh cs = Some (sv, tr) /\ Forall (fun b => b = true) (map snd tr) /\
  sv_ranges sv = Some (layout 1 0) /\ exists id, match sv_stateGuess sv with Some (g, vr) => g = id /\ vr = layout 1 1 | None => False end.
Proof.
  exists [CallSpecify (mkPS true 1 1 1%R) (good [] []); CallGuesses (Some 4) (Some 5); CallSpecify (mkPS true 1 0 1%R) (good [] [])].
  eexists _, _. split; [cbv -[Rplus Rmult Rdiv sqrt IZR]; reflexivity|]. split; [repeat constructor|]. split; [reflexivity|].
  exists 4. split; reflexivity.
Qed.
(** When the new settings have fewer points, the states returned keep the old extra
    points; when they have more, solve writes past the end of the old states. *)
Theorem C49_fewer_points_stale_refuted : exists cs sv tr, wrun wfresh cs = Some (sv, tr) /\ Forall (fun b => b = true) (map snd tr) /\
  ps_points (sv_settings sv) = 0 /\ exists s, In s (sv_optimalStates sv) /\ length (leftContactPointsState s) = 1.
Proof.
  exists [CallSpecify (mkPS true 1 1 1%R) (good [0%R] [0%R]); CallSolve (solved 1 1); CallSpecify (mkPS true 1 0 1%R) (good [0%R] [0%R]); CallSolve (solved 1 0)].
  eexists _, _. split; [cbv -[Rplus Rmult Rdiv sqrt IZR Rlt_dec]; reflexivity|]. split; [repeat constructor|]. split; [reflexivity|].
  eexists. split; [left; reflexivity | reflexivity].
Qed.
Theorem C49_more_points_out_of_bounds_refuted : exists cs sv tr, wrun wfresh cs = Some (sv, tr) /\ Forall (fun b => b = true) (map snd tr) /\
  contract 1 1 (solved 1 1) /\ wrun wfresh (cs ++ [CallSolve (solved 1 1)]) = None.
Proof.
  exists [CallSpecify (mkPS true 1 0 1%R) (good [0%R] [0%R]); CallSolve (solved 1 0); CallSpecify (mkPS true 1 1 1%R) (good [0%R] [0%R])].
  eexists _, _. split; [cbv -[Rplus Rmult Rdiv sqrt IZR Rlt_dec]; reflexivity|]. split; [repeat constructor|]. split.
  { intros st ct us uc E1 E2. injection E1 as <- <-. injection E2 as <- <-. cbn. repeat split; repeat constructor. }
  cbv -[Rplus Rmult Rdiv sqrt IZR Rlt_dec]. reflexivity.
Qed.

Print Assumptions C34_refused_before_settings. Print Assumptions C34_invalid_arguments_refused. Print Assumptions C34_settings_accepted.
Print Assumptions C34_no_undefined_behaviour. Print Assumptions C34_initial_state. Print Assumptions C34_solve_sequence.
Print Assumptions C35_guess_used. Print Assumptions C35_consumed_by_success. Print Assumptions C49_solution.
Print Assumptions C34_failed_settings_leave_a_mixture_refuted. Print Assumptions C35_guess_keeps_old_structure_refuted.
Print Assumptions C49_fewer_points_stale_refuted. Print Assumptions C49_more_points_out_of_bounds_refuted.
Print Assumptions C34_tools_used. Print Assumptions C34_tools_accepted. Print Assumptions C34_infinities.
