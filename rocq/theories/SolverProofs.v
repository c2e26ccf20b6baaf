(** Invariants of the life cycle of the solver. *)
From Coq Require Import Reals String List Arith Bool Lra Lia.
From Verif Require Import SpecState SpecGeometry SpecReference SpecContainers StateModel Labeller LabellerProofs Layout LayoutProofs StateVectorProofs SolverModel PropState.
Import ListNotations.
Local Open Scope nat_scope.

Section Proofs.
Context {Rot : Type} (idR : Rot) (asQ : Rot -> V4) (fromQ : V4 -> Rot).
Context (fp : point_state) (fc : point_control) (resizeV : nat -> list R -> list R).
Context (gS : state Rot) (gC : control) (junk : nat -> list R) (zok : bool).
Notation callR := (@call Rot).
Notation solverR := (@solver Rot).
Notation stepR := (step idR asQ fromQ fp fc resizeV gS gC junk zok).
Notation specifyR := (specifySettings idR fp fc resizeV gS gC junk zok).
Notation solveR := (solve idR asQ fromQ fp fc resizeV gS gC junk).
Notation runR := (run idR asQ fromQ fp fc resizeV gS gC junk zok).

(** ** What a history says, from the calls and their results only. *)
Definition entry := (callR * bool)%type.
(** The settings have been accepted at least once. *)
Definition was_prepared (tr : list entry) : bool :=
  existsb (fun e => match e with (CallSpecify _ _, true) => true | _ => false end) tr.
(** Guesses given and not consumed by a successful solution. *)
Definition pending_step (g : option (nat * nat)) (e : entry) : option (nat * nat) :=
  match e with
  | (CallGuesses (Some s) (Some c), true) => Some (s, c)
  | (CallSolve _, true) => None
  | _ => g
  end.
Definition pending (tr : list entry) : option (nat * nat) := fold_left pending_step tr None.
(** No solution has been found since the settings were accepted. *)
Definition fresh_step (f : bool) (e : entry) : bool :=
  match e with (CallSpecify _ _, true) => true | (CallSolve _, true) => false | _ => f end.
Definition never_solved (tr : list entry) : bool := fold_left fresh_step tr false.
(** Last initial state accepted. *)
Definition initial_step (s : option (state Rot)) (e : entry) : option (state Rot) :=
  match e with (CallInitialState s', true) => Some s' | _ => s end.
Definition last_initial (tr : list entry) : option (state Rot) := fold_left initial_step tr None.
(** Last settings that passed the validity check (whether or not the call succeeded). *)
Definition settings_step (p : option psettings) (e : entry) : option psettings :=
  match e with (CallSpecify ps _, _) => if ps_valid ps then Some ps else p | _ => p end.
Definition last_settings (tr : list entry) : option psettings := fold_left settings_step tr None.

Lemma was_prepared_snoc tr e : was_prepared (tr ++ [e]) = was_prepared tr || match e with (CallSpecify _ _, true) => true | _ => false end.
Proof. unfold was_prepared. rewrite existsb_app. cbn [existsb]. now rewrite orb_false_r. Qed.
Lemma pending_snoc tr e : pending (tr ++ [e]) = pending_step (pending tr) e.
Proof. unfold pending. now rewrite fold_left_app. Qed.
Lemma fresh_snoc tr e : never_solved (tr ++ [e]) = fresh_step (never_solved tr) e.
Proof. unfold never_solved. now rewrite fold_left_app. Qed.
Lemma initial_snoc tr e : last_initial (tr ++ [e]) = initial_step (last_initial tr) e.
Proof. unfold last_initial. now rewrite fold_left_app. Qed.
Lemma settings_snoc tr e : last_settings (tr ++ [e]) = settings_step (last_settings tr) e.
Proof. unfold last_settings. now rewrite fold_left_app. Qed.

(** ** Invariant of every history. *)
Definition guess_ok (p : option (nat * nat)) (sg cg : option (nat * var_ranges)) : Prop :=
  match p with
  | Some (s, c) => exists vr, sg = Some (s, vr) /\ cg = Some (c, vr)
  | None => sg = None /\ cg = None
  end.
Definition general (tr : list entry) (sv : solverR) : Prop :=
  sv_prepared sv = was_prepared tr /\
  guess_ok (pending tr) (sv_stateGuess sv) (sv_controlGuess sv) /\
  (sv_prepared sv = true -> sv_firstRun sv = never_solved tr) /\
  (sv_prepared sv = true -> sv_shooting sv <> None /\ sv_problem sv <> None) /\
  match last_settings tr with Some ps => sv_settings sv = ps | None => sv_prepared sv = false end.

Ltac snocs := rewrite ?was_prepared_snoc, ?pending_snoc, ?fresh_snoc, ?initial_snoc, ?settings_snoc.

Lemma general_step tr sv c sv' ev b : general tr sv -> stepR sv c = Some (sv', ev, b) -> general (tr ++ [(c, b)]) sv'.
Proof.
  intros G. assert (G0 := G). destruct G0 as (P & GG & F & N & ST). unfold general. snocs.
  destruct c as [ps an | s | s c | o ok | i ok | an]; cbn [step pending_step fresh_step settings_step].
  - intros E. injection E as E. unfold specifySettings in E.
    destruct (ps_valid ps) eqn:EV; cbn [negb] in E.
    2: { injection E as <- <- <-. rewrite orb_false_r. auto. }
    destruct (setVariablesStructure zok (ps_dofs ps) (ps_points ps) (sv_S sv) (sv_C sv)) as [[S1 C1] vr].
    assert (NC : sv_prepared sv = true -> forall x : nat, (sv_shooting sv <> None) /\ Some x <> None).
    { intros H x. split; [apply (N H) | discriminate]. }
    assert (NN : sv_prepared sv = true -> forall x y : nat, Some x <> None /\ Some y <> None) by (intros; split; discriminate).
    repeat match type of E with context [if ?c then _ else _] => destruct c end;
    repeat match type of E with context [match ?c with Some _ => _ | None => _ end] => destruct c as [[? ?]|] || destruct c end;
    repeat match type of E with context [if ?c then _ else _] => destruct c end;
    injection E as <- <- <-; cbn [sv_prepared sv_stateGuess sv_controlGuess sv_firstRun sv_shooting sv_problem sv_settings];
    rewrite ?orb_false_r, ?orb_true_r; repeat split; auto; try discriminate; intros; try apply (N H); try discriminate.
  - destruct (setInitialState sv s) as [sv1 b1] eqn:E. intros E2; injection E2 as <- <- <-.
    unfold setInitialState in E. destruct (negb (sv_prepared sv)); [injection E as <- <-; rewrite orb_false_r; auto|].
    destruct (negb (state_sameSize Rot (sv_initial sv) s)); injection E as <- <-; rewrite orb_false_r; auto.
  - unfold setGuesses. destruct (sv_prepared sv) eqn:EP; cbn [negb].
    2: { cbn [bind]. intros E; injection E as <- <- <-. destruct s, c; cbn [pending_step]; rewrite orb_false_r, ?EP; auto. }
    destruct s as [s|].
    2: { cbn [bind]. intros E; injection E as <- <- <-. cbn [pending_step]; rewrite orb_false_r, ?EP; auto. }
    destruct c as [c|].
    2: { cbn [bind]. intros E; injection E as <- <- <-. cbn [pending_step]; rewrite orb_false_r, ?EP; auto. }
    destruct (sv_ranges sv) as [vr|]; [|discriminate]. cbn [bind]. intros E; injection E as <- <- <-.
    cbn [pending_step with_guesses sv_prepared sv_stateGuess sv_controlGuess sv_firstRun sv_shooting sv_problem sv_settings].
    rewrite orb_false_r, EP. repeat split; auto; try apply (N eq_refl). exists vr. auto.
  - unfold setOptimizer. destruct o as [[[o p] m]|]; [|intros E; injection E as <- <- <-; rewrite orb_false_r; auto].
    destruct (sv_prepared sv) eqn:EP.
    + destruct (sv_shooting sv) as [id|] eqn:ES; [|discriminate].
      destruct (negb ok); intros E; injection E as <- <- <-; cbn [with_tools sv_prepared sv_stateGuess sv_controlGuess sv_firstRun sv_shooting sv_problem sv_settings];
      rewrite ?EP, ?ES, orb_false_r; repeat split; auto; try discriminate; try apply (N eq_refl).
    + intros E; injection E as <- <- <-; cbn [with_tools sv_prepared sv_stateGuess sv_controlGuess sv_firstRun sv_shooting sv_problem sv_settings].
      rewrite ?EP, orb_false_r; repeat split; auto; intros; discriminate.
  - unfold setIntegrator. destruct i as [i|]; [|intros E; injection E as <- <- <-; rewrite orb_false_r; auto].
    destruct (sv_prepared sv) eqn:EP.
    + destruct (sv_shooting sv) as [id|] eqn:ES; [|discriminate].
      destruct (negb ok); intros E; injection E as <- <- <-; cbn [with_tools sv_prepared sv_stateGuess sv_controlGuess sv_firstRun sv_shooting sv_problem sv_settings];
      rewrite ?EP, ?ES, orb_false_r; repeat split; auto; try discriminate; try apply (N eq_refl).
    + intros E; injection E as <- <- <-; cbn [with_tools sv_prepared sv_stateGuess sv_controlGuess sv_firstRun sv_shooting sv_problem sv_settings].
      rewrite ?EP, orb_false_r; repeat split; auto; intros; discriminate.
  - rewrite orb_false_r. unfold solve. destruct (sv_prepared sv) eqn:EP; cbn [negb].
    2: { intros E; injection E as <- <- <-. rewrite EP; auto. }
    destruct (negb (state_checkSize Rot (sv_initial sv) (ps_dofs (sv_settings sv)) (ps_points (sv_settings sv)))).
    { intros E; injection E as <- <- <-. rewrite EP; auto. }
    destruct (sv_ranges sv) as [vr|]; [|discriminate].
    destruct (sv_shooting sv) as [id|] eqn:ESH; [|discriminate]. destruct (sv_problem sv) as [pid|] eqn:EPR; [|discriminate].
    destruct (fillInitialState asQ junk vr (sv_initial sv)) as [v0|]; cbn [bind]; [|discriminate].
    match goal with |- context [match ?x with Some g => [EvGuesses id g] | None => [] end] => generalize x end. intros g.
    destruct (negb (va_initial an)). { intros E; injection E as <- <- <-. rewrite EP, ESH, EPR; auto. }
    destruct (negb (va_horizon an)). { intros E; injection E as <- <- <-. rewrite EP, ESH, EPR; auto. }
    destruct (match g with Some _ => negb (va_guesses an) | None => false end).
    { intros E; injection E as <- <- <-. rewrite EP, ESH, EPR; auto. }
    destruct (negb (va_solve an)). { intros E; injection E as <- <- <-. rewrite EP, ESH, EPR; auto. }
    destruct (va_timings an) as [[st ct]|]. 2: { intros E; injection E as <- <- <-. rewrite EP, ESH, EPR; auto. }
    destruct (va_solution an) as [[us uc]|].
    2: { intros E; injection E as <- <- <-.
         cbn [with_guesses sv_prepared sv_stateGuess sv_controlGuess sv_firstRun sv_shooting sv_problem sv_settings].
         rewrite EP, ESH, EPR; auto. }
    destruct (fillSolutionVectors _ _ _ _ _ _ _ _ _ _ _ _ _ _ _) as [[os oc]|]; cbn [bind]; [|discriminate].
    intros E; injection E as <- <- <-.
    cbn [with_guesses sv_prepared sv_stateGuess sv_controlGuess sv_firstRun sv_shooting sv_problem sv_settings guess_ok].
    rewrite EP, ESH, EPR. repeat split; auto; discriminate.
Qed.

Lemma run_snoc sv cs c : runR sv (cs ++ [c]) =
  do (sv1, tr) <- runR sv cs; do (sv2, _, b) <- stepR sv1 c; Some (sv2, tr ++ [(c, b)]).
Proof.
  revert sv; induction cs as [|c0 cs IH]; intros sv; cbn [run app].
  - cbn [bind]. destruct (stepR sv c) as [[[sv1 ev] b]|]; reflexivity.
  - destruct (stepR sv c0) as [[[sv1 ev] b]|]; cbn [bind]; [|reflexivity].
    rewrite IH. destruct (runR sv1 cs) as [[sv2 tr]|]; cbn [bind]; [|reflexivity].
    destruct (stepR sv2 c) as [[[sv3 ev3] b3]|]; reflexivity.
Qed.

Lemma general_run garb gf e ip cs sv tr : runR (solver_new garb gf e ip) cs = Some (sv, tr) -> general tr sv.
Proof.
  revert sv tr; induction cs as [|c cs IH] using rev_ind; intros sv tr.
  - cbn [run]. intros E; injection E as <- <-. unfold general, solver_new. destruct ip as [[[? ?] ?]|]; cbn; repeat split; auto; discriminate.
  - rewrite run_snoc. destruct (runR (solver_new garb gf e ip) cs) as [[sv1 tr1]|] eqn:E1; cbn [bind]; [|discriminate].
    destruct (stepR sv1 c) as [[[sv2 ev] b]|] eqn:E2; cbn [bind]; [|discriminate].
    intros E; injection E as <- <-. eapply general_step; eauto.
Qed.

(** ** Optimiser and integrator in force: the last ones accepted. *)
Definition optimizer_step (o : option (nat * R * R)) (e : entry) : option (nat * R * R) :=
  match e with (CallOptimizer (Some x) _, true) => Some x | _ => o end.
Definition last_optimizer (ip : option (nat * R * R)) (tr : list entry) : option (nat * R * R) := fold_left optimizer_step tr ip.
Definition integrator_step (o : option nat) (e : entry) : option nat :=
  match e with (CallIntegrator (Some x) _, true) => Some x | _ => o end.
Definition last_integrator (tr : list entry) : option nat := fold_left integrator_step tr None.

Definition tools_are (o : option (nat * R * R)) (i : option nat) (sv : solverR) : Prop :=
  sv_optimizer sv = option_map (fun x => fst (fst x)) o /\ sv_integrator sv = i /\
  sv_plusInf sv = match o with Some (_, p, _) => p | None => pinfinity end /\
  sv_minusInf sv = match o with Some (_, _, m) => m | None => (- pinfinity)%R end.
Lemma specify_tools o i sv ps an sv' ev b : tools_are o i sv -> specifySettings idR fp fc resizeV gS gC junk zok sv ps an = (sv', ev, b) -> tools_are o i sv'.
Proof.
  intros T E. unfold specifySettings in E.
  repeat lazymatch type of E with
  | (if ?c then _ else _) = _ => destruct c
  | (match ?c with _ => _ end) = _ => destruct c
  | (let x := ?c in _) = _ => cbv zeta in E
  end; injection E as <- <- <-; exact T.
Qed.
Lemma tools_step o i sv c sv' ev b : tools_are o i sv -> stepR sv c = Some (sv', ev, b) ->
  tools_are (optimizer_step o (c, b)) (integrator_step i (c, b)) sv'.
Proof.
  intros T. destruct c as [ps an|s|s c|x ok|x ok|an]; cbn [step optimizer_step integrator_step].
  - intros E. injection E as E. exact (specify_tools _ _ _ _ _ _ _ _ T E).
  - unfold setInitialState. destruct (negb _); [|destruct (negb _)]; intros E; injection E as <- <- <-; exact T.
  - unfold setGuesses. destruct (negb _); cbn [bind]; [intros E; injection E as <- <- <-; exact T|].
    destruct s, c; cbn [bind]; try (intros E; injection E as <- <- <-; exact T).
    destruct (sv_ranges sv); cbn [bind]; [|discriminate]. intros E; injection E as <- <- <-; exact T.
  - unfold setOptimizer. destruct x as [[[x p] m]|]; [|intros E; injection E as <- <- <-; exact T].
    destruct (sv_prepared sv); [destruct (sv_shooting sv); [|discriminate]; destruct ok; cbn [negb]|];
      intros E; injection E as <- <- <-; try exact T; destruct T as (T1 & T2 & T3 & T4); repeat split; assumption.
  - unfold setIntegrator. destruct x as [x|]; [|intros E; injection E as <- <- <-; exact T].
    destruct (sv_prepared sv); [destruct (sv_shooting sv); [|discriminate]; destruct ok; cbn [negb]|];
      intros E; injection E as <- <- <-; try exact T; destruct T as (T1 & T2 & T3 & T4); repeat split; assumption.
  - unfold solve. intros E.
    repeat lazymatch type of E with
    | (if ?c then _ else _) = _ => destruct c
    | (match ?c with _ => _ end) = _ => destruct c
    | bind ?c _ = _ => destruct c; cbn [bind] in E
    | (let x := ?c in _) = _ => cbv zeta in E
    | None = _ => discriminate
    end; injection E as <- <- <-; exact T.
Qed.
Lemma tools_run garb gf e ip cs sv tr : runR (solver_new garb gf e ip) cs = Some (sv, tr) -> tools_are (last_optimizer ip tr) (last_integrator tr) sv.
Proof.
  revert sv tr; induction cs as [|c cs IH] using rev_ind; intros sv tr.
  - cbn [run]. intros E; injection E as <- <-. unfold solver_new. destruct ip as [[[? ?] ?]|]; repeat split.
  - rewrite run_snoc. destruct (runR (solver_new garb gf e ip) cs) as [[sv1 tr1]|] eqn:E1; cbn [bind]; [|discriminate].
    destruct (stepR sv1 c) as [[[sv2 ev] b]|] eqn:E2; cbn [bind]; [|discriminate].
    intros E; injection E as <- <-. unfold last_optimizer, last_integrator. rewrite !fold_left_app. cbn [fold_left].
    eapply tools_step; [|exact E2]. exact (IH _ _ eq_refl).
Qed.

(** ** Histories that keep the number of joints and points. *)
Section Uniform.
Context (d n : nat).
Hypothesis nontrivial : (d, n) <> (0, 0).
Hypothesis resizeV_size : forall k l, length (resizeV k l) = k.
Hypothesis junk_size : forall k, length (junk k) = k.

(** The external solver returns one vector of the right dimension per time. *)
Definition contract (an : solve_answers) : Prop :=
  forall st ct us uc, va_timings an = Some (st, ct) -> va_solution an = Some (us, uc) ->
    length us = length st /\ length uc = length ct /\
    Forall (fun v => length v = 12 * n + 16 + d) us /\ Forall (fun v => length v = 12 * n + 7 + d) uc.
Definition call_ok (c : callR) : Prop :=
  match c with
  | CallSpecify ps _ => ps_valid ps = true -> ps_dofs ps = d /\ ps_points ps = n
  | CallSolve an => contract an
  | _ => True
  end.

Definition ranges_are (g : option (nat * var_ranges)) : Prop := match g with Some (_, vr) => vr = layout d n | None => True end.
Definition uniform (tr : list entry) (sv : solverR) : Prop :=
  (sv_prepared sv = true -> sv_ranges sv = Some (layout d n)) /\
  match last_settings tr with Some ps => ps_dofs ps = d /\ ps_points ps = n | None => True end /\
  (state_sized (sv_initial sv) 0 0 /\ last_settings tr = None /\ last_initial tr = None \/
   state_sized (sv_initial sv) d n /\ match last_initial tr with Some s => sv_initial sv = s | None => state_zero idR (sv_initial sv) end) /\
  Forall (fun s => state_sized s d n) (sv_optimalStates sv) /\ Forall (fun c => control_sized c d n) (sv_optimalControls sv) /\
  ranges_are (sv_stateGuess sv) /\ ranges_are (sv_controlGuess sv).

Lemma zeroed_sized (s : state Rot) : state_sized s d n -> state_sized (state_zeroed Rot idR s) d n.
Proof. intros (A & B & C). unfold state_sized. cbn [state_zeroed leftContactPointsState rightContactPointsState jointsConfiguration]. unfold zero_all. rewrite !map_length. auto. Qed.
Lemma czeroed_sized (s : control) : control_sized s d n -> control_sized (control_zeroed s) d n.
Proof. intros (A & B & C). unfold control_sized. cbn [control_zeroed leftContactPointsControl rightContactPointsControl jointsVelocity]. unfold zero_all. rewrite !map_length. auto. Qed.
Lemma newState_sized : state_sized (newState idR fp resizeV gS d n) d n.
Proof. apply zeroed_sized. apply (C46_state_resize Rot fp resizeV resizeV_size d n gS). Qed.
Lemma newControl_sized : control_sized (newControl fc resizeV gC d n) d n.
Proof. apply czeroed_sized. apply (C46_control_resize fc resizeV resizeV_size d n gC). Qed.

Lemma resize_with_length {A} k (x : A) l : length (resize_with k x l) = k.
Proof. unfold resize_with. rewrite app_length, firstn_length, repeat_length. lia. Qed.
Lemma resize_with_Forall {A} (P : A -> Prop) k x l : P x -> Forall P l -> Forall P (resize_with k x l).
Proof.
  intros Hx H. unfold resize_with. apply Forall_app; split.
  - clear Hx. revert k; induction H; intros [|k]; cbn [firstn]; constructor; auto.
  - generalize (k - length l). intros m. induction m; cbn; constructor; auto.
Qed.

Lemma prepareInitial_ok tr (s : state Rot) :
  (state_sized s 0 0 /\ last_settings tr = None /\ last_initial tr = None \/
   state_sized s d n /\ match last_initial tr with Some s' => s = s' | None => state_zero idR s end) ->
  let s' := prepareInitial idR fp resizeV d n s in
  state_sized s' d n /\ match last_initial tr with Some s0 => s' = s0 | None => state_zero idR s' end.
Proof.
  intros H. cbv zeta. unfold prepareInitial.
  assert (Z : state_sized (state_zeroed Rot idR (state_resize Rot fp resizeV d n s)) d n /\ state_zero idR (state_zeroed Rot idR (state_resize Rot fp resizeV d n s))).
  { split; [apply zeroed_sized, (C46_state_resize Rot fp resizeV resizeV_size d n s) | apply C46_state_zero]. }
  destruct H as [(A & B & C)|(A & B)].
  - rewrite (proj2 (checkSize_iff Rot s 0 0) A). rewrite C. exact Z.
  - destruct (state_checkSize Rot s 0 0) eqn:E.
    { apply checkSize_iff in E. exfalso. apply nontrivial. destruct A as (A1 & A2 & A3), E as (E1 & E2 & E3).
      congruence. }
    rewrite (proj2 (checkSize_iff Rot s d n) A). cbn [negb]. auto.
Qed.

(** [s] is the state that the vector [v] of the optimiser describes at time [t]. *)
Definition represents (v : list R) (t : R) (s : state Rot) : Prop :=
  exists q, v = state_vector (fun _ => q) s /\ baseRotation s = fromQ (normalized4 q) /\ stateTime s = t.
Definition representsC (v : list R) (t : R) (c : control) : Prop := v = control_vector c /\ controlTime c = t.
Definition pointwise {A} (P : list R -> R -> A -> Prop) (vs : list (list R)) (ts : list R) (xs : list A) : Prop :=
  length xs = length ts /\ length vs = length ts /\
  forall i v t x, nth_error vs i = Some v -> nth_error ts i = Some t -> nth_error xs i = Some x -> P v t x.

Lemma pointwise_cons {A} (P : list R -> R -> A -> Prop) v vs t ts x xs : P v t x -> pointwise P vs ts xs -> pointwise P (v :: vs) (t :: ts) (x :: xs).
Proof.
  intros H (L1 & L2 & H3). split; [cbn; lia|]. split; [cbn; lia|].
  intros [|i] v' t' x'; cbn [nth_error]. { intros E1 E2 E3. injection E1 as <-. injection E2 as <-. now injection E3 as <-. } eauto.
Qed.

Lemma fill_states_ok ts : forall vs old, length vs = length ts -> length old = length ts ->
  Forall (fun v => length v = 12 * n + 16 + d) vs -> Forall (fun s => state_sized s d n) old ->
  exists os, fill_states fromQ (layout d n) ts vs old = Some os /\ pointwise represents vs ts os /\ Forall (fun s => state_sized s d n) os.
Proof.
  induction ts as [|t ts IH]; intros [|v vs] [|o old] L1 L2 F1 F2; cbn [length] in *; try discriminate.
  - exists []. cbn. split; [reflexivity|]. split; [|constructor]. repeat split. intros [|i] ? ? ?; discriminate.
  - inversion F1; subst. inversion F2; subst. cbn [fill_states].
    destruct (parse_state (baseRotation o) t v d n ltac:(assumption)) as (s & q & -> & Hs).
    rewrite (read_vector fromQ s o q d n t Hs ltac:(assumption)). cbn [bind].
    destruct (IH vs old ltac:(lia) ltac:(lia) ltac:(assumption) ltac:(assumption)) as (os & -> & P & F). cbn [bind].
    eexists. split; [reflexivity|]. split; [|constructor; [exact Hs | exact F]].
    apply pointwise_cons; auto. exists q. repeat split.
Qed.
Lemma fill_controls_ok ts : forall vs old, length vs = length ts -> length old = length ts ->
  Forall (fun v => length v = 12 * n + 7 + d) vs -> Forall (fun s => control_sized s d n) old ->
  exists os, fill_controls (layout d n) ts vs old = Some os /\ pointwise representsC vs ts os /\ Forall (fun s => control_sized s d n) os.
Proof.
  induction ts as [|t ts IH]; intros [|v vs] [|o old] L1 L2 F1 F2; cbn [length] in *; try discriminate.
  - exists []. cbn. split; [reflexivity|]. split; [|constructor]. repeat split; destruct i; discriminate.
  - inversion F1; subst. inversion F2; subst. cbn [fill_controls].
    destruct (parse_control t v d n ltac:(assumption)) as (s & -> & Hs).
    rewrite (read_vectorC s o d n t Hs ltac:(assumption)). cbn [bind].
    destruct (IH vs old ltac:(lia) ltac:(lia) ltac:(assumption) ltac:(assumption)) as (os & -> & P & F). cbn [bind].
    eexists. split; [reflexivity|]. split; [|constructor; [exact Hs | exact F]].
    apply pointwise_cons; auto. repeat split.
Qed.

(** What one solve does. *)
Definition guess_of (tr : list entry) (sv : solverR) : option (@guesses Rot) :=
  match pending tr with
  | Some (s, c) => Some (UserGuesses s c (layout d n) (layout d n))
  | None => if never_solved tr then Some (DefaultGuesses (sv_initial sv) (newControl fc resizeV gC d n) (layout d n)) else None
  end.

Lemma solve_spec tr sv an : general tr sv -> uniform tr sv -> contract an -> sv_prepared sv = true ->
  exists id pid sv' ev b, solveR sv an = Some (sv', ev, b) /\
   let t0 := stateTime (sv_initial sv) in
   let e1 := EvInitialState id (state_vector asQ (sv_initial sv)) in
   let e2 := EvHorizon pid t0 (t0 + ps_horizon (sv_settings sv))%R in
   let eg := match guess_of tr sv with Some g => [EvGuesses id g] | None => [] end in
   (b = true -> ev = [e1; e2] ++ eg ++ [EvSolve id] /\
      va_initial an = true /\ va_horizon an = true /\ (guess_of tr sv <> None -> va_guesses an = true) /\ va_solve an = true /\
      exists st ct us uc, va_timings an = Some (st, ct) /\ va_solution an = Some (us, uc) /\
        pointwise represents us st (sv_optimalStates sv') /\ pointwise representsC uc ct (sv_optimalControls sv')) /\
   (b = false -> (exists k, ev = firstn k ([e1; e2] ++ eg ++ [EvSolve id])) /\
      sv_optimalStates sv' = sv_optimalStates sv /\ sv_optimalControls sv' = sv_optimalControls sv /\
      sv_stateGuess sv' = sv_stateGuess sv /\ sv_controlGuess sv' = sv_controlGuess sv /\ sv_firstRun sv' = sv_firstRun sv) /\
   sv_initial sv' = sv_initial sv /\ sv_ranges sv' = sv_ranges sv /\ sv_prepared sv' = true /\
   Forall (fun s => state_sized s d n) (sv_optimalStates sv') /\ Forall (fun c => control_sized c d n) (sv_optimalControls sv') /\
   ranges_are (sv_stateGuess sv') /\ ranges_are (sv_controlGuess sv') /\
   (va_initial an = true -> va_horizon an = true -> va_guesses an = true -> va_solve an = true ->
    va_timings an <> None -> va_solution an <> None -> b = true).
Proof.
  intros (P & GG & F & N & ST) (UR & US & UI & UO & UC & R1 & R2) HC EP.
  unfold solve. rewrite EP. cbn [negb].
  destruct (last_settings tr) as [ps|] eqn:EL; [|congruence]. rewrite ST. destruct US as (HD & HN). rewrite HD, HN.
  destruct UI as [(_ & X & _)|(UI & UZ)]; [discriminate|].
  rewrite (proj2 (checkSize_iff Rot (sv_initial sv) d n) UI). cbn [negb].
  rewrite (UR EP). destruct (N EP) as (N1 & N2).
  destruct (sv_shooting sv) as [id|]; [|congruence]. destruct (sv_problem sv) as [pid|]; [|congruence].
  rewrite (fillInitialState_ok asQ junk (sv_initial sv) d n junk_size UI). cbn [bind].
  set (g := match sv_stateGuess sv with Some _ => _ | None => _ end).
  assert (EG : g = guess_of tr sv).
  { unfold g, guess_of. unfold guess_ok in GG. rewrite <- (F EP).
    destruct (pending tr) as [[s c]|].
    - destruct GG as (vr & E1 & E2). rewrite E1, E2 in *. unfold ranges_are in *. now subst vr.
    - destruct GG as (E1 & E2). rewrite E1. reflexivity. }
  clearbody g. rewrite EG. clear g EG. set (g := guess_of tr sv). clearbody g.
  exists id, pid.
  set (e1 := EvInitialState id (state_vector asQ (sv_initial sv))).
  set (t0 := stateTime (sv_initial sv)).
  set (e2 := EvHorizon pid t0 (t0 + ps_horizon ps)%R).
  set (eg := match g with Some g0 => [EvGuesses id g0] | None => [] end).
  destruct (va_initial an) eqn:A1; cbn [negb].
  2: { eexists _, _, _. split; [reflexivity|]. split; [discriminate|]. split.
       { intros _. split; [exists 1; reflexivity|]. auto. } repeat split; auto; discriminate. }
  destruct (va_horizon an) eqn:A2; cbn [negb].
  2: { eexists _, _, _. split; [reflexivity|]. split; [discriminate|]. split.
       { intros _. split; [exists 2; reflexivity|]. auto. } repeat split; auto; discriminate. }
  destruct (match g with Some _ => negb (va_guesses an) | None => false end) eqn:A3.
  { eexists _, _, _. split; [reflexivity|]. split; [discriminate|]. split.
    { intros _. split; [|auto]. exists (2 + length eg). cbn [Nat.add firstn app]. f_equal. f_equal.
      rewrite firstn_app, firstn_all, Nat.sub_diag. cbn [firstn]. now rewrite app_nil_r. }
    repeat split; auto. intros _ _ A3' _ _ _. rewrite A3' in A3. destruct g; discriminate. }
  destruct (va_solve an) eqn:A4; cbn [negb].
  2: { eexists _, _, _. split; [reflexivity|]. split; [discriminate|]. split.
       { intros _. split; [|auto]. exists (3 + length eg).
         rewrite firstn_all2; [reflexivity|]. rewrite !app_length. cbn [length]. lia. } repeat split; auto; discriminate. }
  destruct (va_timings an) as [[st ct]|] eqn:A5.
  2: { eexists _, _, _. split; [reflexivity|]. split; [discriminate|]. split.
       { intros _. split; [|auto]. exists (3 + length eg).
         rewrite firstn_all2; [reflexivity|]. rewrite !app_length. cbn [length]. lia. } repeat split; auto; intros; congruence. }
  destruct (va_solution an) as [[us uc]|] eqn:A6.
  2: { eexists _, _, _. split; [reflexivity|]. split; [discriminate|]. split.
       { intros _. split; [|auto]. exists (3 + length eg).
         rewrite firstn_all2; [reflexivity|]. rewrite !app_length. cbn [length]. lia. } repeat split; auto; intros; congruence. }
  destruct (HC st ct us uc A5 A6) as (L1 & L2 & F1 & F2).
  destruct (fill_states_ok st us (resize_with (length st) (newState idR fp resizeV gS d n) (sv_optimalStates sv)) L1
     (resize_with_length _ _ _) F1 (resize_with_Forall (fun s => state_sized s d n) _ _ _ newState_sized UO)) as (os & Eo & Po & Fo).
  destruct (fill_controls_ok ct uc (resize_with (length ct) (newControl fc resizeV gC d n) (sv_optimalControls sv)) L2
     (resize_with_length _ _ _) F2 (resize_with_Forall (fun c => control_sized c d n) _ _ _ newControl_sized UC)) as (oc & Ec & Pc & Fc).
  unfold fillSolutionVectors. rewrite !HD, !HN. rewrite Eo. cbn [bind]. rewrite Ec. cbn [bind].
  eexists _, _, _. split; [reflexivity|]. split.
  { intros _. split; [reflexivity|]. repeat (split; [auto; fail|]).
    split; [intros HG; destruct g; [now destruct (va_guesses an) | congruence]|]. split; [reflexivity|].
    exists st, ct, us, uc. auto. }
  split; [discriminate|]. repeat split; auto.
Qed.

Lemma structure_ok S0 C0 : (zok = true \/ 0 < d) -> exists SL CL, setVariablesStructure zok d n S0 C0 = (SL, CL, Some (layout d n)).
Proof. intros H. destruct (setVariablesStructure_ok zok d n S0 C0 H) as (SL & CL & E & _). eauto. Qed.

Definition usable_dims : Prop := zok = true \/ 0 < d.
Lemma structure_dec S0 C0 : usable_dims \/ exists SL CL, setVariablesStructure zok d n S0 C0 = (SL, CL, None).
Proof.
  unfold usable_dims. destruct zok; [left; auto|]. destruct d; [|left; right; lia].
  right. pose proof (setVariablesStructure_no_joints n S0 C0) as E.
  destruct (setVariablesStructure false 0 n S0 C0) as [[SL CL] vr]. cbn [snd] in E. subst. eauto.
Qed.

(** One step of a uniform history. *)
Lemma uniform_step tr sv c : general tr sv -> uniform tr sv -> (sv_prepared sv = true -> usable_dims) -> call_ok c ->
  exists sv' ev b, stepR sv c = Some (sv', ev, b) /\ uniform (tr ++ [(c, b)]) sv' /\ (sv_prepared sv' = true -> usable_dims).
Proof.
  intros G U UD OK. assert (U0 := U). destruct U0 as (UR & US & UI & UO & UC & R1 & R2). assert (G0 := G). destruct G0 as (P & GG & F & N & ST).
  unfold uniform. snocs.
  destruct c as [ps an | s | s c | o ok | i ok | an]; cbn [step initial_step settings_step call_ok] in *.
  - destruct (specifyR sv ps an) as [[sv' ev] b] eqn:E. exists sv', ev, b. split; [reflexivity|].
    unfold specifySettings in E. destruct (ps_valid ps) eqn:EV; cbn [negb] in E.
    2: { injection E as <- <- <-. snocs. cbn [initial_step settings_step]. rewrite EV. auto 20. }
    destruct (OK eq_refl) as (D1 & D2). rewrite D1, D2 in E. snocs. cbn [initial_step settings_step]. rewrite EV.
    pose proof (prepareInitial_ok tr (sv_initial sv) UI) as PI. cbv zeta in PI.
    destruct (structure_dec (sv_S sv) (sv_C sv)) as [UDM|(SL & CL & E0)].
    + destruct (structure_ok (sv_S sv) (sv_C sv) UDM) as (SL & CL & E0). rewrite E0 in E.
      repeat match type of E with context [if ?c then _ else _] => destruct c end;
      repeat match type of E with context [match ?c with Some _ => _ | None => _ end] => destruct c as [[? ?]|] || destruct c end;
      repeat match type of E with context [if ?c then _ else _] => destruct c end;
      injection E as <- <- <-; cbn [sv_prepared sv_stateGuess sv_controlGuess sv_firstRun sv_shooting sv_problem sv_settings sv_ranges sv_initial sv_optimalStates sv_optimalControls];
      (split; [split; [reflexivity|]; split; [auto|]; split; [right; exact PI|]; split; [|split; [|split; assumption]]; auto;
         first [apply (resize_with_Forall (fun s => state_sized s d n)) | apply (resize_with_Forall (fun c => control_sized c d n))]; auto using newState_sized, newControl_sized | auto]).
    + rewrite E0 in E. injection E as <- <- <-.
      cbn [sv_prepared sv_stateGuess sv_controlGuess sv_firstRun sv_shooting sv_problem sv_settings sv_ranges sv_initial sv_optimalStates sv_optimalControls].
      split; [|auto]. split. { intros HP. exfalso. specialize (UD HP). destruct (structure_ok (sv_S sv) (sv_C sv) UD) as (? & ? & E1). congruence. }
      split; [auto|]. split; [right; exact PI|]. auto.
  - unfold setInitialState. destruct (sv_prepared sv) eqn:EP; cbn [negb].
    2: { eexists _, _, _. split; [reflexivity|]. snocs. cbn [initial_step settings_step]. rewrite EP. auto 20. }
    destruct (state_sameSize Rot (sv_initial sv) s) eqn:ES; cbn [negb].
    2: { eexists _, _, _. split; [reflexivity|]. snocs. cbn [initial_step settings_step]. rewrite EP. auto 20. }
    eexists _, _, _. split; [reflexivity|]. snocs. cbn [initial_step settings_step sv_prepared sv_stateGuess sv_controlGuess sv_firstRun sv_shooting sv_problem sv_settings sv_ranges sv_initial sv_optimalStates sv_optimalControls].
    split; [|auto]. split; [auto|]. split; [auto|]. split; [|auto]. right. split; [|reflexivity].
    destruct UI as [(_ & X & _)|(UI & _)]. { rewrite X in ST. congruence. }
    apply sameSize_iff in ES. destruct ES as (X1 & X2 & X3), UI as (Y1 & Y2 & Y3). unfold state_sized. intuition congruence.
  - unfold setGuesses. destruct (sv_prepared sv) eqn:EP; cbn [negb].
    2: { eexists _, _, _. split; [reflexivity|]. snocs. cbn [initial_step settings_step]. rewrite EP. auto 20. }
    destruct s as [s|].
    2: { eexists _, _, _. split; [reflexivity|]. snocs. cbn [initial_step settings_step]. rewrite EP. auto 20. }
    destruct c as [c|].
    2: { eexists _, _, _. split; [reflexivity|]. snocs. cbn [initial_step settings_step]. rewrite EP. auto 20. }
    rewrite (UR eq_refl). eexists _, _, _. split; [reflexivity|]. snocs.
    cbn [initial_step settings_step with_guesses sv_prepared sv_stateGuess sv_controlGuess sv_firstRun sv_shooting sv_problem sv_settings sv_ranges sv_initial sv_optimalStates sv_optimalControls ranges_are].
    rewrite EP. split; [|auto]. repeat (split; [auto; fail|]). auto.
  - unfold setOptimizer. destruct o as [[[o p] m]|].
    2: { eexists _, _, _. split; [reflexivity|]. snocs. cbn [initial_step settings_step]. auto 20. }
    destruct (sv_prepared sv) eqn:EP.
    + destruct (sv_shooting sv) as [id|] eqn:ES; [|destruct (N eq_refl) as (NN & _); congruence].
      destruct (negb ok); eexists _, _, _; (split; [reflexivity|]); snocs;
      cbn [initial_step settings_step with_tools sv_prepared sv_stateGuess sv_controlGuess sv_firstRun sv_shooting sv_problem sv_settings sv_ranges sv_initial sv_optimalStates sv_optimalControls];
      rewrite EP; auto 20.
    + eexists _, _, _; (split; [reflexivity|]); snocs;
      cbn [initial_step settings_step with_tools sv_prepared sv_stateGuess sv_controlGuess sv_firstRun sv_shooting sv_problem sv_settings sv_ranges sv_initial sv_optimalStates sv_optimalControls];
      rewrite EP; auto 20.
  - unfold setIntegrator. destruct i as [i|].
    2: { eexists _, _, _. split; [reflexivity|]. snocs. cbn [initial_step settings_step]. auto 20. }
    destruct (sv_prepared sv) eqn:EP.
    + destruct (sv_shooting sv) as [id|] eqn:ES; [|destruct (N eq_refl) as (NN & _); congruence].
      destruct (negb ok); eexists _, _, _; (split; [reflexivity|]); snocs;
      cbn [initial_step settings_step with_tools sv_prepared sv_stateGuess sv_controlGuess sv_firstRun sv_shooting sv_problem sv_settings sv_ranges sv_initial sv_optimalStates sv_optimalControls];
      rewrite EP; auto 20.
    + eexists _, _, _; (split; [reflexivity|]); snocs;
      cbn [initial_step settings_step with_tools sv_prepared sv_stateGuess sv_controlGuess sv_firstRun sv_shooting sv_problem sv_settings sv_ranges sv_initial sv_optimalStates sv_optimalControls];
      rewrite EP; auto 20.
  - destruct (sv_prepared sv) eqn:EP.
    + destruct (solve_spec tr sv an G U OK EP) as (id & pid & sv' & ev & b & E & X). cbv zeta in X.
      destruct X as (_ & _ & X1 & X2 & X3 & X4 & X5 & X6 & X7 & _).
      exists sv', ev, b. split; [exact E|]. snocs. cbn [initial_step settings_step]. rewrite X1, X2, X3.
      split; [|auto]. split; [auto|]. split; [auto|]. auto.
    + exists sv, [], false. split; [unfold solve; rewrite EP; reflexivity|]. snocs. cbn [initial_step settings_step]. rewrite EP. auto 20.
Qed.

Lemma uniform_run garb gf e ip cs : state_sized e 0 0 -> Forall call_ok cs ->
  exists sv tr, runR (solver_new garb gf e ip) cs = Some (sv, tr) /\ uniform tr sv /\ (sv_prepared sv = true -> usable_dims).
Proof.
  intros He. induction cs as [|c cs IH] using rev_ind; intros HF.
  - eexists _, _. split; [reflexivity|]. unfold uniform, solver_new. destruct ip as [[[? ?] ?]|]; cbn; (split; [|discriminate]);
    (split; [discriminate|]); (split; [exact I|]); (split; [left; auto|]); auto.
  - apply Forall_app in HF. destruct HF as (HF & HC). inversion HC; subst.
    destruct (IH HF) as (sv & tr & E & U & UD). rewrite run_snoc, E. cbn [bind].
    destruct (uniform_step tr sv c (general_run _ _ _ _ _ _ _ E) U UD ltac:(assumption)) as (sv' & ev & b & E' & U' & UD').
    rewrite E'. cbn [bind]. eauto.
Qed.
End Uniform.
End Proofs.
