(** C55, C56: the costs and the constraints the solver gives to the optimal control problem. *)
From Coq Require Import String Reals List Arith Bool Lia Lra.
From Verif Require Import SpecState SpecSettings SpecLayout SpecProblem SettingsModel PropSettings Labeller LabellerProofs Layout LayoutProofs LabelFilters ProblemModel ProblemProofs.
Import ListNotations.
Local Open Scope R_scope.

(** The optimal control problem refuses a term whose name it already has; [accepts] stands for its other reasons. *)
Definition run_costs (accepts : term -> bool) (l : list (action term)) : outcome term := perform (fun t => cost_name (t_cost t)) accepts l [].
Definition run_constraints (accepts : restriction -> bool) (l : list (action restriction)) : outcome restriction :=
  perform (fun r => limit_name (r_limit r)) accepts l [].

(** * C55 *)
Section Costs.
Variable st : problem_settings.
Variables SL CL : labeller.
Variable weights_ok : option (nat * nat) -> list R -> bool.
Variable reference_ok : object -> bool.
Variable torques_ok : list R -> bool.
Variable accepts : term -> bool.
Notation x := (getIndexRange SL).
Notation u := (getIndexRange CL).
Notation result := (run_costs accepts (setCosts st SL CL weights_ok reference_ok torques_ok)).

Lemma given_inj : forall a b, given st SL CL a = given st SL CL b -> a = b.
Proof. intros a b H. exact (f_equal t_cost H). Qed.

(** When the configuration of the costs succeeds the problem has exactly the costs the settings ask for, each once. *)
Theorem C55_exactly_the_costs_asked : forall ts, result = Returned true ts ->
  NoDup (map t_cost ts) /\ (forall c, In c (map t_cost ts) <-> asked st c).
Proof.
  intros ts H. apply perform_true in H. destruct H as (-> & _ & _). cbn [app]. rewrite additions_program, map_map.
  cbn [given t_cost]. rewrite map_id. split; [apply listed_NoDup|apply in_listed].
Qed.
(** ... each with its own weight, range of times, variables, weights and reference: for every cost but the force ratio the
    weight is its own, and for every cost but the two whose reference setter may refuse without being heard so are the data. *)
Theorem C55_each_with_its_own_data : forall ts t, result = Returned true ts -> In t ts ->
  t_range t = own_range st (t_cost t) /\
  ((forall s i, t_cost t <> KForceRatio s i) \/ ratioWeight st = meanForceWeight st -> t_weight t = own_weight st (t_cost t)) /\
  ((t_cost t = KMeanPointPosition -> meanPointReference st <> None) ->
   (t_cost t = KFrameAngularVelocity -> rotationReference st <> None) -> t_data t = own_data st x u (t_cost t)).
Proof.
  intros ts t H I. apply perform_true in H. destruct H as (-> & _ & _). cbn [app] in I. rewrite additions_program in I.
  apply in_map_iff in I. destruct I as (c & <- & _). cbn [given t_cost t_range t_weight t_data]. split; [reflexivity|]. split.
  - intros H. destruct c; try reflexivity. destruct H as [H|H]; [exfalso; apply (H s i); reflexivity|]. symmetry. exact H.
  - intros HM HF. destruct c; try reflexivity; cbn [given_data own_data].
    + destruct (meanPointReference st); [reflexivity|exfalso; apply HM; reflexivity].
    + destruct (rotationReference st); [reflexivity|exfalso; apply HF; reflexivity].
Qed.
(** All at once: under the three conditions a term is in the problem if and only if it is a cost that was asked for, with its
    own weight, range and data. *)
Theorem C55_problem_is_the_one_asked : forall ts, result = Returned true ts ->
  (ratioActive st = true -> ratioWeight st = meanForceWeight st) ->
  (meanPointActive st = true -> meanPointReference st <> None) -> (frameVelActive st = true -> rotationReference st <> None) ->
  NoDup ts /\ forall t, In t ts <-> exists c, asked st c /\ t = mkTerm c (own_weight st c) (own_range st c) (own_data st x u c).
Proof.
  intros ts H HR HM HF. apply perform_true in H. destruct H as (-> & _ & _). cbn [app]. rewrite additions_program.
  assert (G : forall c, asked st c -> given st SL CL c = mkTerm c (own_weight st c) (own_range st c) (own_data st x u c)).
  { intros c A. unfold given. destruct c; try reflexivity; cbn [given_data given_weight own_data own_weight asked] in *.
    - rewrite HR by apply A. reflexivity.
    - destruct (meanPointReference st); [reflexivity|exfalso; apply (HM A); reflexivity].
    - destruct (rotationReference st); [reflexivity|exfalso; apply (HF A); reflexivity]. }
  split; [apply NoDup_map_inj; [apply given_inj|apply listed_NoDup]|].
  intros t. rewrite in_map_iff. split.
  - intros (c & <- & I). apply in_listed in I. exists c. split; [exact I|apply G; exact I].
  - intros (c & A & ->). exists c. split; [apply G; exact A|apply in_listed; exact A].
Qed.
(** It succeeds exactly when every cost asked for has usable data and the problem takes it; there is no interference between
    costs (in particular no two have the same name). *)
Theorem C55_succeeds_iff_usable : (forall t, accepts t = true) ->
  ((exists ts, result = Returned true ts) <-> forall c, asked st c -> usable st x u weights_ok reference_ok torques_ok c).
Proof.
  intros AC. split.
  - intros (ts & H) c A. apply perform_true in H. destruct H as (_ & P & _).
    apply passes_needs. exact (proj1 (passes_program st SL CL weights_ok reference_ok torques_ok) P c A).
  - intros H. eexists. unfold run_costs. apply perform_ok.
    + cbn [app]. rewrite additions_program, map_map. cbn [given t_cost]. apply NoDup_map_inj; [exact cost_name_inj|apply listed_NoDup].
    + apply passes_program. intros c A. apply passes_needs. apply H. exact A.
    + intros t _. apply AC.
Qed.
(** When it does not succeed, the problem holds a part of the costs asked for: never one that was not. *)
Theorem C55_nothing_else_is_added : forall ok ts, result = Returned ok ts \/ result = Aborted ts ->
  NoDup (map t_cost ts) /\ forall t, In t ts -> asked st (t_cost t).
Proof.
  intros ok ts H. destruct (perform_any (fun t => cost_name (t_cost t)) accepts (setCosts st SL CL weights_ok reference_ok torques_ok) []) as (k & b & K).
  assert (E : ts = firstn k (map (given st SL CL) (listed st))).
  { rewrite <- (additions_program st SL CL weights_ok reference_ok torques_ok). unfold run_costs in H. cbn [app] in K.
    destruct K as [(ok' & K & _)|(K & _)]; rewrite K in H; destruct H as [H|H]; congruence. }
  subst ts. rewrite <- firstn_map, map_map. cbn [given t_cost]. rewrite map_id. split.
  - rewrite <- (firstn_skipn k (listed st)) in *. pose proof (listed_NoDup st) as N. rewrite <- (firstn_skipn k (listed st)) in N.
    rewrite firstn_skipn. clear H K. revert N. generalize (skipn k (listed st)). generalize (firstn k (listed st)). intros l l' N.
    induction l as [|c l IH]; [constructor|]. inversion N; subst. constructor; [|apply IH; assumption]. rewrite in_app_iff in *. tauto.
  - intros t I. rewrite firstn_map in I. apply in_map_iff in I. destruct I as (c & <- & I). cbn [given t_cost]. apply in_listed.
    rewrite <- (firstn_skipn k (listed st)). apply in_or_app. left. exact I.
Qed.
End Costs.

(** The variables the costs look at, in the structure the solver builds: nothing is looked at outside the vectors. *)
Theorem C55_variables : forall zok dofs n S0 C0 SL CL vr, setVariablesStructure zok dofs n S0 C0 = (SL, CL, Some vr) ->
  (getIndexRange SL "Momentum" = Some (12 * n, 6) /\ getIndexRange SL "CoMPosition" = Some (12 * n + 6, 3) /\
  getIndexRange SL "BasePosition" = Some (12 * n + 9, 3) /\ getIndexRange SL "BaseQuaternion" = Some (12 * n + 12, 4) /\
  getIndexRange SL "JointsPosition" = Some (12 * n + 16, dofs) /\
  getIndexRange CL "BaseLinearVelocity" = Some (12 * n, 3) /\ getIndexRange CL "BaseQuaternionDerivative" = Some (12 * n + 3, 4) /\
  getIndexRange CL "JointsVelocity" = Some (12 * n + 7, dofs) /\
  forall s i, i < n ->
    let first := match s with Left => 0 | Right => 6 * n end in
    getIndexRange CL (point_name s "VelocityControlPoint" i) = Some (first + 6 * i, 3) /\
    getIndexRange CL (point_name s "ForceControlPoint" i) = Some (first + 6 * i + 3, 3))%nat%string.
Proof.
  intros zok dofs n S0 C0 SL CL vr B. destruct (setVariablesStructure_some _ _ _ _ _ _ _ _ B) as (_ & HS & HC).
  repeat split.
  - exact (state_lookup dofs n SL SMom HS Logic.I).
  - exact (state_lookup dofs n SL SCom HS Logic.I).
  - exact (state_lookup dofs n SL SBase HS Logic.I).
  - exact (state_lookup dofs n SL SQuat HS Logic.I).
  - exact (state_lookup dofs n SL SJoint HS Logic.I).
  - exact (control_lookup dofs n CL CLin HC Logic.I).
  - exact (control_lookup dofs n CL CQuat HC Logic.I).
  - exact (control_lookup dofs n CL CJoint HC Logic.I).
  - destruct s; [exact (control_lookup dofs n CL (CV true i) HC H)|exact (control_lookup dofs n CL (CV false i) HC H)].
  - destruct s; [exact (control_lookup dofs n CL (CF true i) HC H)|exact (control_lookup dofs n CL (CF false i) HC H)].
Qed.

(** ** Examples and refutations *)
Definition demo (rw : R) (rot : object) (mp : object) (fr dist : R) (k : complementarity_type) (p : planar_type) (some : bool) (pt : list V3) : problem_settings :=
  {| leftPts := pt; rightPts := pt; leftFrame := "l_sole"; rightFrame := "r_sole";
     compl := k; planar := p;
     forceMaxDerivative := (100, 100, 50); dissipationRatio := 10; secantScaling := 300;
     complDissipation := 10; dynamicUpperBound := 1/100; classicalTolerance := 1/10;
     friction := fr; velocityMaxDerivative := (10, 11, 12); tangentScaling := 500; classicalPlanarTolerance := 1/100;
     lateralIndex := 1; minFeetDistance := dist; distanceRefFrame := "r_sole"; distanceOtherFrame := "l_sole";
     maxRelativeHeight := 1; comTolerance := 1/100; momentumTolerance := 1/100; quaternionTolerance := 1/1000; pointTolerance := 1/1000;
     comActive := some; comWeight := 100; comRange := (0, 3); comWeightVector := [1; 1; 10]; comReference := Some 1%nat;
     comVelActive := some; comVelWeight := 2; comVelRange := (0, 4); comVelWeightVector := [1; 1; 1]; comVelReference := Some 2%nat;
     frameActive := false; frameWeight := 90; frameName := "neck_2"; rotationReference := rot; frameTimeWeight := Some 3%nat;
     meanForceActive := some; meanForceWeight := 3;
     ratioActive := some; ratioWeight := rw; leftRatios := [1/2; 1/2]; rightRatios := [1/4; 3/4];
     jointsActive := some; jointsWeight := 4; jointsReference := Some 4%nat; jointsWeightVector := [1];
     jointsVelActive := some; jointsVelWeight := 5; jointsVelReference := Some 5%nat; jointsVelWeightVector := [1];
     torquesActive := some; torquesWeight := 6; torquesWeightVector := [1];
     forceDerActive := some; forceDerWeight := 7; forceDerReference := Some 6%nat; forceDerWeightVector := [1; 1; 1];
     accActive := some; accWeight := 8; accReference := Some 7%nat; accWeightVector := [1; 1; 1];
     swingActive := some; swingWeight := 9; swingHeight := 3/100; swingWeightVector := [1; 1];
     phantomActive := some; phantomWeight := 10;
     meanPointActive := some; meanPointWeight := 11; meanPointTimeWeight := Some 8%nat; meanPointRange := (1, 2); meanPointReference := mp;
     leftYawActive := some; leftYawWeight := 12; leftYawReference := Some 9%nat;
     rightYawActive := some; rightYawWeight := 13; rightYawReference := Some 10%nat;
     distanceActive := some; distanceWeight := 14;
     posturalActive := some; posturalWeight := 15;
     complCostActive := some; complCostWeight := 16;
     baseActive := some; baseWeight := 17; baseRange := (0, 1); baseWeightVector := [1; 1; 1]; baseReference := Some 11%nat;
     quatActive := some; quatWeight := 18; quatReference := Some 12%nat;
     frameVelActive := true; frameVelWeight := 19; pidGain := 5;
     baseVelActive := some; baseVelWeight := 20; baseVelWeightVector := [1; 1; 1]; baseVelReference := Some 13%nat;
     quatVelActive := some; quatVelWeight := 21; quatVelReference := Some 14%nat;
     angMomActive := some; angMomWeight := 22 |}%string.
Definition yes_w (_ : option (nat * nat)) (_ : list R) := true.
Definition yes_r (o : object) := present o.
Definition yes_t (_ : list R) := true.
Definition yes_term (_ : term) := true.
Definition yes_restriction (_ : restriction) := true.
Definition two_points : list V3 := [(0, 0, 0); (1, 0, 0)].

(** Two contact points per foot, every cost but one: the run succeeds with 44 terms and the hypotheses of the theorems hold. *)
Example C55_hypotheses_hold : let st := demo 3 (Some 0%nat) (Some 15%nat) (3/10) (1/10) Dynamical PlanarClassical true two_points in
  exists ts, run_costs yes_term (setCosts st lab_init lab_init yes_w yes_r yes_t) = Returned true ts /\ length ts = 44%nat /\
  (ratioActive st = true -> ratioWeight st = meanForceWeight st) /\
  (meanPointActive st = true -> meanPointReference st <> None) /\ (frameVelActive st = true -> rotationReference st <> None) /\
  (forall c, asked st c -> usable st (getIndexRange lab_init) (getIndexRange lab_init) yes_w yes_r yes_t c).
Proof.
  cbv zeta. assert (U : forall c, asked (demo 3 (Some 0%nat) (Some 15%nat) (3/10) (1/10) Dynamical PlanarClassical true two_points) c ->
    usable (demo 3 (Some 0%nat) (Some 15%nat) (3/10) (1/10) Dynamical PlanarClassical true two_points)
      (getIndexRange lab_init) (getIndexRange lab_init) yes_w yes_r yes_t c).
  { intros c A. destruct c; try destruct s; cbn in *; try tauto; repeat split; try discriminate; try lia; destruct A; try discriminate; lia. }
  destruct (proj2 (C55_succeeds_iff_usable _ lab_init lab_init yes_w yes_r yes_t yes_term (fun _ => eq_refl)) U) as (ts & H).
  exists ts. split; [exact H|]. apply perform_true in H. destruct H as (-> & _ & _). cbn [app]. rewrite additions_program, map_length.
  repeat split; try discriminate; exact U.
Qed.
(** The weight of the force ratio cost is never read: the terms are added with the weight of the force mean cost
    (Solver.cpp:467,476).  Whatever its value, the problem is the same. *)
Theorem C55_force_ratio_weight_refuted : forall w1 w2 rot mp fr d k p some pt SL CL wo ro to ac,
  run_costs ac (setCosts (demo w1 rot mp fr d k p some pt) SL CL wo ro to) = run_costs ac (setCosts (demo w2 rot mp fr d k p some pt) SL CL wo ro to) /\
  (w1 <> 3 -> exists ts t, run_costs yes_term (setCosts (demo w1 (Some 0%nat) (Some 1%nat) (3/10) d k p true two_points) SL CL yes_w yes_r yes_t) = Returned true ts /\
     In t ts /\ t_cost t = KForceRatio Right 1 /\ t_weight t <> own_weight (demo w1 (Some 0%nat) (Some 1%nat) (3/10) d k p true two_points) (t_cost t)).
Proof.
  intros. split; [reflexivity|]. intros N.
  assert (U : forall c, asked (demo w1 (Some 0%nat) (Some 1%nat) (3/10) d k p true two_points) c ->
    usable (demo w1 (Some 0%nat) (Some 1%nat) (3/10) d k p true two_points) (getIndexRange SL) (getIndexRange CL) yes_w yes_r yes_t c).
  { intros c A. destruct c; try destruct s; cbn in *; try tauto; repeat split; try discriminate; try lia; destruct A; try discriminate; lia. }
  destruct (proj2 (C55_succeeds_iff_usable _ SL CL yes_w yes_r yes_t yes_term (fun _ => eq_refl)) U) as (ts & H).
  exists ts. pose proof (C55_exactly_the_costs_asked _ _ _ _ _ _ _ _ H) as [_ E]. specialize (E (KForceRatio Right 1)).
  pose proof H as H'. apply perform_true in H'. destruct H' as (-> & _ & _). cbn [app] in *. rewrite additions_program in *.
  exists (given (demo w1 (Some 0%nat) (Some 1%nat) (3/10) d k p true two_points) SL CL (KForceRatio Right 1)).
  split; [exact H|]. split; [apply in_map; apply in_listed; cbn; split; [reflexivity|lia]|]. split; [reflexivity|].
  cbn. intros Q. apply N. symmetry. exact Q.
Qed.
(** The angular velocity cost without a desired rotation: refused by its setter, and added all the same with the reference
    it had after construction (Solver.cpp:810). *)
Theorem C55_null_reference_refuted : forall SL CL k p, let st := demo 3 None (Some 1%nat) (3/10) 0 k p false two_points in
  run_costs yes_term (setCosts st SL CL yes_w yes_r yes_t)
  = Returned true [mkTerm KFrameAngularVelocity 19 None [Frame "neck_2"%string; Number 5; DefaultReference]].
Proof. reflexivity. Qed.

(** * C56 *)
Section Constraints.
Variable st : problem_settings.
Variable accepts : restriction -> bool.
Notation result := (run_constraints accepts (setConstraints st)).

(** The constraints in the problem are exactly those the settings ask for, each once. *)
Theorem C56_exactly_the_constraints_asked : forall rs, result = Returned true rs ->
  NoDup (map r_limit rs) /\ forall c, In c (map r_limit rs) <-> imposed st c.
Proof.
  intros rs H. apply perform_true in H. destruct H as (-> & _ & _). cbn [app]. rewrite additions_constraints, map_map.
  cbn [given_limit r_limit]. rewrite map_id. split; [apply limits_NoDup|apply in_limits].
Qed.
(** ... with their own parameters, as long as the minimum distance of the feet is not negative. *)
Theorem C56_each_with_its_own_parameters : forall rs, result = Returned true rs -> 0 <= minFeetDistance st ->
  forall r, In r rs <-> exists c, imposed st c /\ r = mkRestriction c (own_parameters st c).
Proof.
  intros rs H D. apply perform_true in H. destruct H as (-> & _ & _). cbn [app]. rewrite additions_constraints.
  assert (G : forall c, given_limit st c = mkRestriction c (own_parameters st c)).
  { intros c. unfold given_limit. destruct c; try reflexivity. cbn [given_parameters own_parameters].
    unfold kept_distance. destruct (Rlt_dec _ _); [lra|reflexivity]. }
  intros r. rewrite in_map_iff. split.
  - intros (c & <- & I). apply in_limits in I. exists c. split; [exact I|apply G].
  - intros (c & A & ->). exists c. split; [apply G|apply in_limits; exact A].
Qed.
(** It succeeds exactly when the friction coefficient is positive (or there is no contact point). *)
Theorem C56_succeeds_iff_friction_positive : (forall r, accepts r = true) ->
  ((exists rs, result = Returned true rs) <-> 0 < friction st \/ (leftPts st = [] /\ rightPts st = [])).
Proof.
  assert (F : friction_ok st = true <-> 0 < friction st).
  { unfold friction_ok. destruct (Rle_dec _ _); split; intros; try discriminate; try lra; reflexivity. }
  intros AC. split.
  - intros (rs & H). apply perform_true in H. destruct H as (_ & P & _). apply passes_constraints in P. tauto.
  - intros H. eexists. unfold run_constraints. apply perform_ok.
    + cbn [app]. rewrite additions_constraints, map_map. cbn [given_limit r_limit]. apply NoDup_map_inj; [exact limit_name_inj|apply limits_NoDup].
    + apply passes_constraints. tauto.
    + intros t _. apply AC.
Qed.
(** Each contact point has exactly one planar and exactly one normal complementarity mechanism: a constraint on that point,
    or the corresponding smoothing in the dynamics. *)
Definition planar_constraint (s : side) (i : nat) (c : limit) : Prop := c = LPlanarVelocity s i \/ c = LClassicalPlanar s i.
Definition normal_constraint (s : side) (i : nat) (c : limit) : Prop :=
  c = LDynamicalComplementarity s i \/ c = LForceControl s i \/ c = LClassicalComplementarity s i \/ c = LNormalVelocity s i.
Theorem C56_one_mechanism_per_point : forall rs s i, result = Returned true rs -> (i < length (pts st s))%nat ->
  ((exists c, planar_constraint s i c /\ In c (map r_limit rs)) <-> d_planar (configured_dynamics st) = None) /\
  (forall c c', planar_constraint s i c -> planar_constraint s i c' -> In c (map r_limit rs) -> In c' (map r_limit rs) -> c = c') /\
  ((exists c, normal_constraint s i c /\ In c (map r_limit rs)) <-> d_normal (configured_dynamics st) = None) /\
  (forall c c', normal_constraint s i c -> normal_constraint s i c' -> In c (map r_limit rs) -> In c' (map r_limit rs) -> c = c').
Proof.
  intros rs s i H Hi. destruct (C56_exactly_the_constraints_asked _ H) as [_ E].
  unfold configured_dynamics, is_planar, is_compl, planar_constraint, normal_constraint. cbn [d_planar d_normal].
  setoid_rewrite E. repeat split.
  - intros (c & [->| ->] & K); cbn in K; destruct K as [K _]; rewrite K; reflexivity.
  - destruct (planar st) eqn:P; intros K; try discriminate K.
    + exists (LPlanarVelocity s i). cbn. rewrite P. auto.
    + exists (LClassicalPlanar s i). cbn. rewrite P. auto.
  - intros c c' [->| ->] [->| ->] K K'; cbn in K, K'; try reflexivity; destruct K as [K _], K' as [K' _]; congruence.
  - intros (c & [->|[->|[->| ->]]] & K); cbn in K; try contradiction; destruct K as [K _]; rewrite K; reflexivity.
  - destruct (compl st) eqn:P; intros K; try discriminate K.
    + exists (LForceControl s i). cbn. rewrite P. auto.
    + exists (LDynamicalComplementarity s i). cbn. rewrite P. auto.
    + exists (LClassicalComplementarity s i). cbn. rewrite P. tauto.
  - intros c c' [->|[->|[->| ->]]] [->|[->|[->| ->]]] K K'; cbn in K, K'; try contradiction; try reflexivity; destruct K as [K _], K' as [K' _]; congruence.
Qed.
(** Every contact point has its friction cone and its position constraint, and nothing is imposed on points that do not exist. *)
Theorem C56_every_point_covered : forall rs s i, result = Returned true rs ->
  (In (LFriction s i) (map r_limit rs) <-> (i < length (pts st s))%nat) /\ (In (LPointPosition s i) (map r_limit rs) <-> (i < length (pts st s))%nat) /\
  (forall c, In c (map r_limit rs) -> planar_constraint s i c \/ normal_constraint s i c -> (i < length (pts st s))%nat).
Proof.
  intros rs s i H. destruct (C56_exactly_the_constraints_asked _ H) as [_ E].
  split; [apply E|]. split; [apply E|]. intros c K [[->| ->]|[->|[->|[->| ->]]]]; apply E in K; cbn in K; tauto.
Qed.
(** When it does not succeed no other constraint is in the problem. *)
Theorem C56_nothing_else_is_added : forall ok rs, result = Returned ok rs \/ result = Aborted rs ->
  forall r, In r rs -> imposed st (r_limit r).
Proof.
  intros ok rs H r I. destruct (perform_any (fun r => limit_name (r_limit r)) accepts (setConstraints st) []) as (k & b & K).
  assert (E : rs = firstn k (map (given_limit st) (limits st))).
  { rewrite <- additions_constraints. unfold run_constraints in H. cbn [app] in K.
    destruct K as [(ok' & K & _)|(K & _)]; rewrite K in H; destruct H as [H|H]; congruence. }
  subst rs. rewrite firstn_map in I. apply in_map_iff in I. destruct I as (c & <- & I). cbn [given_limit r_limit]. apply in_limits.
  rewrite <- (firstn_skipn k (limits st)). apply in_or_app. left. exact I.
Qed.
(** It never aborts. *)
Theorem C56_no_abort : forall rs, result <> Aborted rs.
Proof.
  intros rs. unfold run_constraints.
  assert (P : Forall (fun a => forall b, a <> @Assert restriction b) (setConstraints st)).
  { unfold setConstraints. rewrite !Forall_app, !Forall_for. split; [repeat constructor; discriminate|].
    split; intros i _; [unfold left_point|unfold right_point]; unfold is_planar, is_compl; destruct (planar st), (compl st); cbn; repeat constructor; discriminate. }
  revert P. generalize (@nil restriction). induction (setConstraints st) as [|a l IH]; intros ts P; cbn [perform]; [discriminate|].
  inversion P; subst. destruct a as [[]|b|t]; try discriminate; [apply IH; assumption|exfalso; eapply H1; reflexivity|].
  destruct (_ || _); [discriminate|apply IH; assumption].
Qed.
End Constraints.

Example C56_hypotheses_hold : forall k p, let st := demo 3 (Some 0%nat) (Some 15%nat) (3/10) (1/10) k p true two_points in
  exists rs, run_constraints yes_restriction (setConstraints st) = Returned true rs /\ 0 <= minFeetDistance st /\ (1 < length (pts st Left))%nat.
Proof.
  intros k p st. destruct (proj2 (C56_succeeds_iff_friction_positive st yes_restriction (fun _ => eq_refl))) as (rs & H).
  - left. cbn. lra.
  - exists rs. split; [exact H|]. cbn. split; [lra|lia].
Qed.
(** A friction coefficient of zero passes the validation of the settings and the solver then refuses to set the constraints. *)
Theorem C56_zero_friction_refuted :
  (forall store, exists s, PropSettings.accepts store s /\ frictionCoefficient s = Fin 0 /\ leftPoints s = two_points) /\
  (forall st ac rs, friction st = 0 -> leftPts st = two_points -> run_constraints ac (setConstraints st) <> Returned true rs).
Proof.
  split.
  - intros store. exists (probe (Fin 1) (Fin 0) false true false true true false true false true two_points).
    split; [apply probe_accepts; [apply lt10|apply lt00|discriminate]|]. split; reflexivity.
  - intros st ac rs F L H. apply perform_true in H. destruct H as (_ & P & _). apply passes_constraints in P.
    destruct P as [P|[P _]]; [|rewrite L in P; discriminate P]. unfold friction_ok in P. destruct (Rle_dec _ _); [discriminate|lra].
Qed.
(** A negative minimum distance of the feet is silently replaced by zero. *)
Theorem C56_negative_distance_refuted : forall k p, let st := demo 3 (Some 0%nat) (Some 15%nat) (3/10) (-1) k p true [] in
  exists rs, run_constraints yes_restriction (setConstraints st) = Returned true rs /\
  In (mkRestriction LFeetLateralDistance [Index 1; Frame "r_sole"; Frame "l_sole"; Number 0]%string) rs /\
  ~ In (mkRestriction LFeetLateralDistance (own_parameters st LFeetLateralDistance)) rs.
Proof.
  intros k p st. exists (map (given_limit st) (limits st)). split; [|split].
  - unfold run_constraints. rewrite perform_ok.
    + cbn [app]. rewrite additions_constraints. reflexivity.
    + cbn [app]. rewrite additions_constraints, map_map. cbn [given_limit r_limit]. apply NoDup_map_inj; [exact limit_name_inj|apply limits_NoDup].
    + apply passes_constraints. right. split; reflexivity.
    + reflexivity.
  - right. right. left. unfold given_limit. cbn. unfold kept_distance. cbn. destruct (Rlt_dec _ _); [reflexivity|lra].
  - intros I. apply in_map_iff in I. destruct I as (c & E & _). assert (c = LFeetLateralDistance) by exact (f_equal r_limit E). subst c.
    apply (f_equal r_data) in E. cbn in E. injection E as E. unfold kept_distance in E. cbn in E. destruct (Rlt_dec _ _); lra.
Qed.

Print Assumptions C55_exactly_the_costs_asked.
Print Assumptions C55_each_with_its_own_data.
Print Assumptions C55_problem_is_the_one_asked.
Print Assumptions C55_succeeds_iff_usable.
Print Assumptions C55_nothing_else_is_added.
Print Assumptions C55_variables.
Print Assumptions C55_force_ratio_weight_refuted.
Print Assumptions C55_null_reference_refuted.
Print Assumptions C56_exactly_the_constraints_asked.
Print Assumptions C56_each_with_its_own_parameters.
Print Assumptions C56_succeeds_iff_friction_positive.
Print Assumptions C56_one_mechanism_per_point.
Print Assumptions C56_every_point_covered.
Print Assumptions C56_nothing_else_is_added.
Print Assumptions C56_no_abort.
Print Assumptions C56_zero_friction_refuted.
Print Assumptions C56_negative_distance_refuted.
