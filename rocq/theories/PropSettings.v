(** C31, C32, C33, C51: validation of the settings. *)
From Coq Require Import Reals String List Arith Bool Lra Lia.
From Verif Require Import SpecState SpecSettings SettingsModel.
Import ListNotations.
Local Open Scope R_scope.

(** * Booleans against the order of the specification *)
Lemma dltb_false_dle : forall a b, is_number a -> is_number b -> (dltb a b = false <-> dle b a).
Proof.
  intros a b Ha Hb; destruct a, b; cbn [dltb dle]; try (split; intros; try reflexivity; try exact I; try discriminate; try contradiction; fail);
    try (exfalso; (now apply Ha) || (now apply Hb)).
  destruct (Rlt_dec r r0); split; intros; try reflexivity; try discriminate; lra.
Qed.
Lemma dleb_false_dlt : forall a b, is_number a -> is_number b -> (dleb a b = false <-> dlt b a).
Proof.
  intros a b Ha Hb; destruct a, b; cbn [dleb dlt]; try (split; intros; try reflexivity; try exact I; try discriminate; try contradiction; fail);
    try (exfalso; (now apply Ha) || (now apply Hb)).
  destruct (Rle_dec r r0); split; intros; try reflexivity; try discriminate; lra.
Qed.
Lemma Fin_number : forall r, is_number (Fin r).
Proof. intros r H; discriminate. Qed.
Lemma nonneg_iff : forall a, is_number a -> (dltb a d0 = false <-> nonneg a).
Proof. intros; apply dltb_false_dle; [assumption | apply Fin_number]. Qed.
Lemma neqb_iff : forall a b, neqb a b = false <-> a = b.
Proof. intros; unfold neqb; rewrite negb_false_iff; apply Nat.eqb_eq. Qed.
Lemma twice_number : forall a, is_number a -> is_number (dtwice a).
Proof. intros [r| | |] H; unfold is_number in *; cbn [dtwice]; congruence. Qed.

Definition allF (l : list bool) : Prop := Forall (fun b => b = false) l.
Lemma countErrors_0 : forall l, countErrors l = 0%nat <-> allF l.
Proof.
  induction l as [|b l IH]; unfold allF; [split; intros; [constructor | reflexivity]|].
  unfold countErrors in *; cbn [filter]; destruct b; cbn [length].
  - split; intros H; [lia | inversion H; discriminate].
  - rewrite IH; split; intros H; [constructor; [reflexivity | exact H] | now inversion H].
Qed.
Lemma allF_cons : forall b l, allF (b :: l) <-> b = false /\ allF l.
Proof. intros; unfold allF; split; intros H; [inversion H; now split | constructor; apply H]. Qed.
Lemma allF_nil : allF [] <-> True. Proof. split; intros; [exact I | constructor]. Qed.
Lemma allF_app : forall a b, allF (a ++ b) <-> allF a /\ allF b.
Proof. intros; apply Forall_app. Qed.
Lemma allF_when : forall b l, allF (when b l) <-> (b = true -> allF l).
Proof. intros [] l; cbn [when]; split; intros H; auto; try discriminate; constructor. Qed.

Lemma limit_checks : forall jl jvl,
  Forall (fun p => is_number (fst p) /\ is_number (snd p)) jl ->
  Forall (fun p => is_number (fst p) /\ is_number (snd p)) jvl ->
  length jl = length jvl ->
  exists l, limitChecks jl jvl = Some l /\ (allF l <-> Forall ordered jl /\ Forall ordered jvl).
Proof.
  induction jl as [|p jl IH]; intros [|q jvl] H1 H2 L; try discriminate L.
  - exists []; split; [reflexivity|]; split; intros; [split; constructor | constructor].
  - inversion H1 as [|? ? [A1 A2] H1']; inversion H2 as [|? ? [B1 B2] H2']; subst.
    destruct (IH jvl H1' H2' ltac:(now inversion L)) as [l [E I]].
    cbn [limitChecks]; rewrite E; eexists; split; [reflexivity|].
    rewrite !allF_cons, I, (dltb_false_dle _ _ A2 A1), (dltb_false_dle _ _ B2 B1).
    split.
    + intros (X & Y & Z & W); split; constructor; assumption.
    + intros [X Y]; inversion X; inversion Y; subst; repeat split; assumption.
Qed.

Lemma limitChecks_none : forall jl jvl, limitChecks jl jvl = None <-> (length jvl < length jl)%nat.
Proof.
  induction jl as [|p jl IH]; intros [|q jvl]; cbn [limitChecks length].
  - split; intros H; [discriminate | lia].
  - split; intros H; [discriminate | lia].
  - split; intros H; [lia | reflexivity].
  - specialize (IH jvl). destruct (limitChecks jl jvl); split; intros H; try discriminate; try reflexivity.
    + exfalso; apply PeanoNat.Nat.succ_lt_mono, IH in H; discriminate.
    + apply -> PeanoNat.Nat.succ_lt_mono; now apply IH.
Qed.

Lemma ratio_iff : forall l, Forall is_number l -> (allF (ratioErrors l) <-> Forall unit_interval l).
Proof.
  induction 1 as [|x l Hx Hl IH]; cbn [ratioErrors map]; [split; intros; constructor|].
  fold (ratioErrors l); rewrite allF_cons, IH, orb_false_iff, (nonneg_iff _ Hx).
  rewrite (dltb_false_dle d1 x (Fin_number _) Hx).
  split.
  - intros [[A B] C]; constructor; [split; assumption | assumption].
  - intros H; inversion H as [|? ? [A B] C]; subst; repeat split; assumption.
Qed.
Lemma dmin_nonneg : forall a b, is_number a -> is_number b -> (nonneg (dmin a b) <-> nonneg a /\ nonneg b) /\ is_number (dmin a b).
Proof.
  intros [x| | |] [y| | |] Ha Hb; unfold dmin, nonneg, is_number in *; cbn [dltb dle];
    try (split; [tauto | congruence]); try congruence.
  destruct (Rlt_dec y x); cbn [dle]; (split; [|congruence]); lra.
Qed.
Lemma peq_iff : forall a, (peqb a HyperbolicTangentInDynamics || peqb a HyperbolicTangentInequality = true) <-> a <> PlanarClassical.
Proof. intros []; cbn [peqb orb]; split; congruence. Qed.
Lemma peq_cl : forall a, peqb a PlanarClassical = true <-> a = PlanarClassical.
Proof. intros []; cbn [peqb]; split; congruence. Qed.
Lemma ceqb_iff : forall a b, ceqb a b = true <-> a = b.
Proof. intros [] []; cbn [ceqb]; split; congruence. Qed.

(** The code asks for the rotation reference where the force derivative reference is meant. *)
Definition quirk (s : settings) : Prop := forceDerivativeCostActive s = true -> desiredRotationTrajectory s = true.

Ltac nums H := unfold all_numbers in H; destruct H as (HN & HJ & HV & HL & HR);
  repeat match goal with X : Forall is_number (_ :: _) |- _ => apply Forall_cons_iff in X; destruct X as [? X] end.

Lemma checks_iff : forall s, all_numbers s -> length (jointsLimits s) = nrOfDOFs (robotModel s) ->
  length (jointsVelocityLimits s) = nrOfDOFs (robotModel s) ->
  (allF (checks1 s) /\ (Forall ordered (jointsLimits s) /\ Forall ordered (jointsVelocityLimits s)) /\ allF (checks2 s)
   <-> documented s /\ quirk s).
Proof.
  intros s N L1 L2; nums N.
  unfold checks1, checks2, quirk, minCoeff. destruct (velocityMaximumDerivative s) as [[va vb] vc] eqn:EV; cbn [fst snd] in *.
  destruct (dmin_nonneg va vb) as [MA MB]; [assumption..|].
  destruct (dmin_nonneg (dmin va vb) vc) as [MC MD]; [assumption..|].
  repeat rewrite ?allF_app, ?allF_cons, ?allF_when, ?allF_nil.
  rewrite !ratio_iff by assumption. rewrite !neqb_iff, !negb_false_iff, !ceqb_iff, peq_iff, peq_cl, orb_false_iff, Nat.ltb_ge.
  rewrite (dleb_false_dlt (maximumDt s) (dtwice (minimumDt s))) by (try apply twice_number; assumption).
  rewrite (dltb_false_dle d1 (activeControlPercentage s)) by (try apply Fin_number; assumption).
  rewrite !nonneg_iff by assumption.
  rewrite MC, MA.
  split.
  - intros HH; split; [|tauto].
    constructor; try rewrite EV; unfold unit_interval; try tauto.
  - intros [D Q]; destruct D; rewrite EV in *; unfold unit_interval in *; tauto.
Qed.

Definition accepts (st : Settings) (s : settings) : Prop := exists st', setFromStruct st s = Some (st', true).

(** ** C31: acceptance is exactly the documented ranges (for settings without NaN),
    plus the misplaced check on the rotation reference. *)
Theorem C31_accepted_iff : forall st s, all_numbers s -> (accepts st s <-> documented s /\ quirk s).
Proof.
  intros st s N. split.
  - intros [st' E]. unfold setFromStruct in E.
    destruct (limitChecks (jointsLimits s) (jointsVelocityLimits s)) as [lim|] eqn:EL; [|discriminate].
    destruct (Nat.eqb (countErrors (checks1 s) + countErrors lim + countErrors (checks2 s)) 0) eqn:EE; [|discriminate].
    apply Nat.eqb_eq in EE.
    assert (A1 : allF (checks1 s)) by (apply countErrors_0; lia).
    assert (A2 : allF lim) by (apply countErrors_0; lia).
    assert (A3 : allF (checks2 s)) by (apply countErrors_0; lia).
    assert (L : length (jointsLimits s) = nrOfDOFs (robotModel s) /\ length (jointsVelocityLimits s) = nrOfDOFs (robotModel s)).
    { pose proof A1 as B; unfold checks1 in B. repeat rewrite allF_cons in B. rewrite !neqb_iff in B. tauto. }
    destruct L as [L1 L2].
    apply (checks_iff s N L1 L2). split; [assumption|]. split; [|assumption].
    destruct N as (_ & NJ & NV & _).
    destruct (limit_checks _ _ NJ NV (eq_trans L1 (eq_sym L2))) as [l [E1 I]].
    rewrite E1 in EL; inversion EL; subst; now apply I.
  - intros [D Q].
    pose proof (doc_limits_size s D) as L1. pose proof (doc_vlimits_size s D) as L2.
    destruct (proj2 (checks_iff s N L1 L2) (conj D Q)) as (A1 & A2 & A3).
    destruct N as (_ & NJ & NV & _).
    destruct (limit_checks _ _ NJ NV (eq_trans L1 (eq_sym L2))) as [l [E1 I]].
    exists (mkStore s true). unfold setFromStruct. rewrite E1.
    apply I, countErrors_0 in A2. apply countErrors_0 in A1. apply countErrors_0 in A3. rewrite A1, A2, A3. reflexivity.
Qed.
Theorem C31_accepted_documented : forall st s, all_numbers s -> accepts st s -> documented s.
Proof. intros st s N A; now apply (C31_accepted_iff st s N). Qed.

Lemma wrong_size_rejected : forall st s, length (jointsLimits s) <> nrOfDOFs (robotModel s) ->
  (length (jointsLimits s) <= length (jointsVelocityLimits s))%nat -> setFromStruct st s = Some (st, false).
Proof.
  intros st s H L. unfold setFromStruct.
  destruct (limitChecks (jointsLimits s) (jointsVelocityLimits s)) as [lim|] eqn:E.
  - match goal with |- (if Nat.eqb ?n 0 then _ else _) = _ => destruct (Nat.eqb n 0) eqn:EE end; [|reflexivity].
    exfalso. apply Nat.eqb_eq in EE. apply H.
    assert (A : allF (checks1 s)) by (apply countErrors_0; lia).
    unfold checks1 in A; repeat rewrite allF_cons in A. rewrite !neqb_iff in A. tauto.
  - apply limitChecks_none in E. lia.
Qed.

(** ** Defaults *)
Definition suits_defaults (m : robot_model) : Prop :=
  isLinkNameUsed m "root_link" = true /\ isFrameNameUsed m "l_sole" = true /\ isFrameNameUsed m "r_sole" = true /\
  isFrameNameUsed m "neck_2" = true /\
  (** the joints that have degrees of freedom come first, one degree of freedom each *)
  (exists moving fixed, joints m = moving ++ fixed /\ length moving = nrOfDOFs m /\
     Forall (fun j => length j = 1%nat) moving) /\
  (forall j p, In j (joints m) -> In (Some p) j -> is_number (fst p) /\ is_number (snd p) /\ ordered p).

Lemma big_pos : 0 < big. Proof. unfold big; apply pow_lt; lra. Qed.
Lemma flat_one : forall (l : list (list (option (dbl * dbl)))), Forall (fun j => length j = 1%nat) l ->
  length (flat_map (map limitOf) l) = length l.
Proof. induction 1 as [|j l Hj Hl IH]; [reflexivity|]. cbn [flat_map length]. rewrite app_length, map_length, IH, Hj; reflexivity. Qed.
Lemma defaults_limits : forall m, suits_defaults m -> exists jl, defaultJointsLimits m = Some jl /\
  length jl = nrOfDOFs m /\ Forall (fun p => is_number (fst p) /\ is_number (snd p)) jl /\ Forall ordered jl.
Proof.
  intros m (_ & _ & _ & _ & (mv & fx & E & L & F) & P).
  unfold defaultJointsLimits. rewrite E, <- L, app_length.
  rewrite (proj2 (Nat.leb_le _ _)) by lia. eexists; split; [reflexivity|].
  rewrite firstn_app, firstn_all, Nat.sub_diag, firstn_O, app_nil_r.
  assert (Q : forall q, In q (flat_map (map limitOf) mv) -> is_number (fst q) /\ is_number (snd q) /\ ordered q).
  { intros q Hq. apply in_flat_map in Hq as (j & Hj & Hq). apply in_map_iff in Hq as (o & Ho & Io); subst.
    destruct o as [p|]; cbn [limitOf].
    - apply (P j p); [rewrite E; apply in_or_app; now left | assumption].
    - cbn [fst snd]; repeat split; try apply Fin_number. unfold ordered; cbn [fst snd dle]. pose proof big_pos; lra. }
  split; [now apply flat_one|].
  split; apply Forall_forall; intros q Hq; destruct (Q q Hq) as (A & B & C); [now split | assumption].
Qed.

Ltac red_doc := cbv [nonneg ordered unit_interval dle dlt dtwice minimumDt maximumDt controlPeriod horizon activeControlPercentage
       robotModel floatingBaseName leftPoints rightPoints leftFrameName rightFrameName complementarity complementarityDissipation
       dynamicComplementarityUpperBound classicalComplementarityTolerance frictionCoefficient planarComplementarity
       velocityMaximumDerivative planarVelocityHyperbolicTangentScaling classicalPlanarComplementarityTolerance
       indexOfLateralDirection minimumFeetDistance referenceFrameNameForFeetDistance otherFrameNameForFeetDistance
       feetMaximumRelativeHeight comPositionConstraintTolerance centroidalMomentumConstraintTolerance
       quaternionModulusConstraintTolerance pointPositionConstraintTolerance minimumCoMHeight jointsLimits jointsVelocityLimits
       constrainTargetCoMPosition targetCoMPositionTolerance constrainTargetCoMPositionRange_valid maximumAngularMomentum
       comCostActive comCostActiveRange_valid comWeights desiredCoMTrajectory comVelocityCostActive comVelocityWeights
       desiredCoMVelocityTrajectory frameCostActive frameForOrientationCost desiredRotationTrajectory frameCostTimeVaryingWeight
       forceRatioCostActive desiredLeftRatios desiredRightRatios jointsRegularizationCostActive desiredJointsTrajectory
       jointsRegularizationWeights staticTorquesCostActive staticTorquesCostWeights forceDerivativeCostActive
       forceDerivativeWeights pointAccelerationCostActive desiredPointAccelerationTrajectory pointAccelerationWeights
       swingCostActive desiredSwingHeight meanPointPositionCostActive meanPointPositionCostTimeVaryingWeight
       meanPointPositionCostActiveRange_valid desiredMeanPointPosition basePositionCostActive basePositionCostActiveRange_valid
       basePositionCostWeights desiredBasePositionTrajectory baseQuaternionCostActive desiredBaseQuaternionTrajectory
       baseLinearVelocityCostActive baseLinearVelocityCostWeights desiredBaseLinearVelocityTrajectory
       baseQuaternionVelocityCostActive desiredBaseQuaternionVelocityTrajectory].
(** ** C51: the default settings are accepted. *)
Theorem C51_defaults_accepted : forall m st, suits_defaults m ->
  exists d, Defaults m = Some d /\ documented d /\ accepts st d.
Proof.
  intros m st H. destruct (defaults_limits m H) as (jl & E & L & NJ & OJ). destruct H as (H1 & H2 & H3 & H4 & _).
  unfold Defaults; rewrite E. eexists; split; [reflexivity|].
  match goal with |- documented ?d /\ _ => set (s := d) end.
  pose proof big_pos as BP.
  assert (D : documented s).
  { unfold s; constructor;
      red_doc;
      intros; try assumption; try discriminate; try lra; try lia; try reflexivity; try apply repeat_length;
      repeat split; try assumption; try reflexivity; try lra; try lia.
    - apply Forall_forall; intros q Hq; apply repeat_spec in Hq; subst q; cbn [fst snd]; lra.
    - apply Forall_forall; intros q Hq; apply repeat_spec in Hq; subst q; split; lra.
    - apply Forall_forall; intros q Hq; apply repeat_spec in Hq; subst q; split; lra. }
  split; [exact D|].
  apply C31_accepted_iff; [|split; [exact D | intros _; reflexivity]].
  unfold all_numbers, s; cbn [jointsLimits jointsVelocityLimits desiredLeftRatios desiredRightRatios].
  split; [repeat constructor; apply Fin_number|]. split; [exact NJ|].
  split; [|split]; apply Forall_forall; intros q Hq; apply repeat_spec in Hq; subst q; try split; apply Fin_number.
Qed.

(** A robot with three single degree of freedom joints (the second without limits) and a
    fixed joint at the end. *)
Definition used (l : list string) (n : string) : bool := existsb (String.eqb n) l.
Definition robot : robot_model := mkModel (used ["root_link"%string]) (used ["root_link"; "l_sole"; "r_sole"; "neck_2"]%string) 3
  [ [Some (Fin (-1), Fin 1)]; [None]; [Some (Fin 0, Fin 2)]; [] ].
Example C51_nonvacuous : suits_defaults robot.
Proof.
  repeat split.
  - exists [ [Some (Fin (-1), Fin 1)]; [None]; [Some (Fin 0, Fin 2)] ], [[]]. repeat split. repeat constructor.
  - cbn [joints robot In] in H; intuition subst; cbn [In] in *; intuition; try congruence;
      match goal with E : Some _ = Some p |- _ => inversion E; apply Fin_number end.
  - cbn [joints robot In] in H; intuition subst; cbn [In] in *; intuition; try congruence;
      match goal with E : Some _ = Some p |- _ => inversion E; apply Fin_number end.
  - cbn [joints robot In] in H; intuition subst; cbn [In] in *; intuition; try congruence;
      match goal with E : Some _ = Some p |- _ => inversion E; unfold ordered; cbn [fst snd dle]; lra end.
Qed.
(** Finding: with a fixed joint before a moving one the loop of Defaults does not reach
    the last moving joint, and the result is rejected by setFromStruct. *)
Definition robot_fixed_first : robot_model := mkModel (used ["root_link"%string]) (used ["root_link"; "l_sole"; "r_sole"; "neck_2"]%string) 2
  [ []; [Some (Fin (-1), Fin 1)]; [Some (Fin 0, Fin 2)] ].
Theorem C51_fixed_joint_first_refuted : exists d, Defaults robot_fixed_first = Some d /\
  (length (jointsLimits d) < nrOfDOFs robot_fixed_first)%nat /\
  forall st, setFromStruct st d = Some (st, false).
Proof.
  eexists; split; [reflexivity|]. split; [cbn [jointsLimits flat_map map limitOf app length firstn joints nrOfDOFs robot_fixed_first]; lia|].
  intros st. apply wrong_size_rejected; cbn [jointsLimits jointsVelocityLimits robotModel flat_map map limitOf app length firstn joints nrOfDOFs robot_fixed_first repeat]; lia.
Qed.

(** ** C31: findings, on a family of structures that differ in a few fields.
    The robot has no joints; all costs are off except the ones switched on. *)
Definition probe (h fr : dbl) (target comRef : bool) (fder fderRef rotRef : bool) (jvel jvelRef yaw yawRef : bool)
  (points : list V3) : settings :=
  {| minimumDt := Fin (1/100); maximumDt := Fin (1/10); controlPeriod := Fin (1/100); horizon := h;
     activeControlPercentage := Fin 1; robotModel := mkModel (fun _ => true) (fun _ => true) 0 []; floatingBaseName := "root_link"%string;
     leftPoints := points; rightPoints := points; leftFrameName := "l_sole"%string; rightFrameName := "r_sole"%string;
     complementarity := HyperbolicSecantInequality; complementarityDissipation := Fin 10;
     dynamicComplementarityUpperBound := Fin (1/100); classicalComplementarityTolerance := Fin (1/10);
     frictionCoefficient := fr; planarComplementarity := HyperbolicTangentInDynamics;
     velocityMaximumDerivative := (Fin 10, Fin 10, Fin 10); planarVelocityHyperbolicTangentScaling := Fin 50;
     classicalPlanarComplementarityTolerance := Fin (1/10); indexOfLateralDirection := 1; minimumFeetDistance := Fin (1/10);
     referenceFrameNameForFeetDistance := "r_sole"%string; otherFrameNameForFeetDistance := "l_sole"%string;
     feetMaximumRelativeHeight := Fin (4/100); comPositionConstraintTolerance := Fin (1/1000);
     centroidalMomentumConstraintTolerance := Fin (1/100); quaternionModulusConstraintTolerance := Fin (1/10000);
     pointPositionConstraintTolerance := Fin (1/1000); minimumCoMHeight := Fin (2/10);
     jointsLimits := []; jointsVelocityLimits := [];
     constrainTargetCoMPosition := target; targetCoMPositionTolerance := true; constrainTargetCoMPositionRange_valid := true;
     maximumAngularMomentum := Fin 10;
     comCostActive := false; comCostActiveRange_valid := true; comWeights := 3; desiredCoMTrajectory := comRef;
     comVelocityCostActive := false; comVelocityWeights := 3; desiredCoMVelocityTrajectory := true;
     frameCostActive := false; frameForOrientationCost := "neck_2"%string; desiredRotationTrajectory := rotRef; frameCostTimeVaryingWeight := true;
     forceRatioCostActive := false; desiredLeftRatios := []; desiredRightRatios := [];
     jointsRegularizationCostActive := false; desiredJointsTrajectory := true; jointsRegularizationWeights := 0;
     jointsVelocityCostActive := jvel; desiredJointsVelocityTrajectory := jvelRef; jointsVelocityCostWeights := 0;
     staticTorquesCostActive := false; staticTorquesCostWeights := 0;
     forceDerivativeCostActive := fder; desiredForceDerivativeTrajectory := fderRef; forceDerivativeWeights := 3;
     pointAccelerationCostActive := false; desiredPointAccelerationTrajectory := true; pointAccelerationWeights := 3;
     swingCostActive := false; desiredSwingHeight := Fin (3/100);
     meanPointPositionCostActive := false; meanPointPositionCostTimeVaryingWeight := true;
     meanPointPositionCostActiveRange_valid := true; desiredMeanPointPosition := true;
     leftFootYawCostActive := yaw; desiredLeftFootYaw := yawRef; rightFootYawCostActive := yaw; desiredRightFootYaw := yawRef;
     jointsVelocityForPosturalCostActive := false;
     basePositionCostActive := false; basePositionCostActiveRange_valid := true; basePositionCostWeights := 3; desiredBasePositionTrajectory := true;
     baseQuaternionCostActive := false; desiredBaseQuaternionTrajectory := true;
     frameAngularVelocityCostActive := false;
     baseLinearVelocityCostActive := false; baseLinearVelocityCostWeights := 3; desiredBaseLinearVelocityTrajectory := true;
     baseQuaternionVelocityCostActive := false; desiredBaseQuaternionVelocityTrajectory := true |}.

Lemma probe_accepts : forall st h fr target comRef fder fderRef rotRef jvel jvelRef yaw yawRef points,
  dltb h d0 = false -> dltb fr d0 = false -> (fder = true -> rotRef = true) ->
  accepts st (probe h fr target comRef fder fderRef rotRef jvel jvelRef yaw yawRef points).
Proof.
  intros st h fr target comRef fder fderRef rotRef jvel jvelRef yaw yawRef points Hh Hf Hr.
  set (s := probe _ _ _ _ _ _ _ _ _ _ _ _). exists (mkStore s true). unfold setFromStruct.
  change (limitChecks (jointsLimits s) (jointsVelocityLimits s)) with (Some (@nil bool)).
  assert (A1 : allF (checks1 s)).
  { unfold checks1.
    repeat (apply allF_cons; split); [..|constructor]; try reflexivity; try exact Hh; try exact Hf; try (apply neqb_iff; reflexivity);
      cbv [s probe minimumDt maximumDt controlPeriod activeControlPercentage complementarityDissipation minimumFeetDistance comPositionConstraintTolerance centroidalMomentumConstraintTolerance quaternionModulusConstraintTolerance pointPositionConstraintTolerance minimumCoMHeight];
      cbv [dltb dleb dtwice d0 d1 orb];
      repeat match goal with |- context[Rlt_dec ?a ?b] => destruct (Rlt_dec a b); [exfalso; lra|] end;
      repeat match goal with |- context[Rle_dec ?a ?b] => destruct (Rle_dec a b); [exfalso; lra|] end; reflexivity. }
  assert (A2 : allF (checks2 s)).
  { unfold checks2.
    repeat (apply allF_app; split); try (apply allF_when; intros W; try discriminate W);
      repeat (apply allF_cons; split); try apply Forall_nil; try reflexivity; try (apply neqb_iff; reflexivity);
      try (apply negb_false_iff; exact (Hr W));
      cbv [s probe maximumAngularMomentum feetMaximumRelativeHeight velocityMaximumDerivative planarVelocityHyperbolicTangentScaling];
      unfold minCoeff, dmin; cbv [dltb dleb dtwice d0 d1 orb];
      repeat match goal with |- context[Rlt_dec ?a ?b] => destruct (Rlt_dec a b); [exfalso; lra|]; cbn [dltb] end;
      reflexivity. }
  apply countErrors_0 in A1. apply countErrors_0 in A2. rewrite A1, A2. reflexivity.
Qed.
Lemma lt00 : dltb (Fin 0) d0 = false. Proof. cbn [dltb d0]; destruct (Rlt_dec 0 0); [lra | reflexivity]. Qed.
Lemma lt10 : dltb (Fin 1) d0 = false. Proof. cbn [dltb d0]; destruct (Rlt_dec 1 0); [lra | reflexivity]. Qed.

(** Not a number passes: the checks are of the form "x < 0". *)
Theorem C31_nan_horizon_accepted_refuted : forall st, exists s, accepts st s /\ horizon s = NaN /\ ~ documented s.
Proof.
  intros st; exists (probe NaN (Fin 1) false true false true true false true false true []).
  split; [apply probe_accepts; [reflexivity | apply lt10 | discriminate]|].
  split; [reflexivity|]. intros D; exact (doc_horizon _ D).
Qed.
(** A zero horizon and an empty set of contact points pass. *)
Theorem C31_zero_horizon_accepted_refuted : forall st, exists s, accepts st s /\ all_numbers s /\ horizon s = Fin 0 /\ leftPoints s = [].
Proof.
  intros st; exists (probe (Fin 0) (Fin 1) false true false true true false true false true []).
  split; [apply probe_accepts; [apply lt00 | apply lt10 | discriminate]|].
  split; [|split; reflexivity].
  unfold all_numbers, probe; cbn [jointsLimits jointsVelocityLimits desiredLeftRatios desiredRightRatios].
  repeat split; try (repeat constructor; apply Fin_number).
Qed.
(** The references of the active costs and of the target constraint.  The solver
    dereferences these. *)
Definition references_present (s : settings) : Prop :=
  (forceDerivativeCostActive s = true -> desiredForceDerivativeTrajectory s = true) /\
  (jointsVelocityCostActive s = true -> desiredJointsVelocityTrajectory s = true) /\
  (leftFootYawCostActive s = true -> desiredLeftFootYaw s = true) /\
  (rightFootYawCostActive s = true -> desiredRightFootYaw s = true) /\
  (constrainTargetCoMPosition s = true -> desiredCoMTrajectory s = true) /\
  (frameAngularVelocityCostActive s = true -> desiredRotationTrajectory s = true) /\
  (jointsVelocityForPosturalCostActive s = true -> desiredJointsTrajectory s = true).
Theorem C31_missing_references_refuted : forall st,
  (exists s, accepts st s /\ forceDerivativeCostActive s = true /\ desiredForceDerivativeTrajectory s = false) /\
  (exists s, accepts st s /\ jointsVelocityCostActive s = true /\ desiredJointsVelocityTrajectory s = false) /\
  (exists s, accepts st s /\ leftFootYawCostActive s = true /\ desiredLeftFootYaw s = false) /\
  (exists s, accepts st s /\ constrainTargetCoMPosition s = true /\ desiredCoMTrajectory s = false) /\
  (exists s, accepts st s /\ ~ references_present s).
Proof.
  intros st.
  assert (P : forall target comRef fder fderRef rotRef jvel jvelRef yaw yawRef, (fder = true -> rotRef = true) ->
    accepts st (probe (Fin 1) (Fin 1) target comRef fder fderRef rotRef jvel jvelRef yaw yawRef [])).
  { intros; apply probe_accepts; [apply lt10 | apply lt10 | assumption]. }
  split; [|split; [|split; [|split]]].
  - exists (probe (Fin 1) (Fin 1) false true true false true false true false true []); split; [apply P; auto | split; reflexivity].
  - exists (probe (Fin 1) (Fin 1) false true false true true true false false true []); split; [apply P; auto | split; reflexivity].
  - exists (probe (Fin 1) (Fin 1) false true false true true false true true false []); split; [apply P; auto | split; reflexivity].
  - exists (probe (Fin 1) (Fin 1) true false false true true false true false true []); split; [apply P; auto | split; reflexivity].
  - exists (probe (Fin 1) (Fin 1) true false false true true false true false true []); split; [apply P; auto|].
    intros (_ & _ & _ & _ & H & _); discriminate (H eq_refl).
Qed.
(** A complete force derivative cost is rejected when the unrelated rotation reference is missing. *)
Theorem C31_unrelated_reference_required_refuted : forall st, exists s,
  forceDerivativeCostActive s = true /\ desiredForceDerivativeTrajectory s = true /\ frameCostActive s = false /\
  all_numbers s /\ documented s /\ ~ accepts st s.
Proof.
  intros st. exists (probe (Fin 1) (Fin 1) false true true true false false true false true []).
  assert (N : all_numbers (probe (Fin 1) (Fin 1) false true true true false false true false true [])).
  { unfold all_numbers, probe; cbn [jointsLimits jointsVelocityLimits desiredLeftRatios desiredRightRatios].
    repeat split; try (repeat constructor; apply Fin_number). }
  repeat (split; [reflexivity|]). split; [exact N|]. split.
  - constructor; unfold probe; red_doc; intros; try discriminate; try reflexivity; try apply Forall_nil; try lra; try lia; repeat split; lra.
  - intros A; apply (C31_accepted_iff st _ N) in A as [_ Q]. discriminate (Q eq_refl).
Qed.
Example C31_nonvacuous : forall st, exists d, Defaults robot = Some d /\ documented d /\ accepts st d.
Proof. intros; apply C51_defaults_accepted, C51_nonvacuous. Qed.

(** ** C32: a rejected structure changes nothing; an accepted one is stored as given. *)
Theorem C32_rejected_unchanged : forall st s st', setFromStruct st s = Some (st', false) -> st' = st.
Proof.
  intros st s st' H; unfold setFromStruct in H.
  destruct (limitChecks (jointsLimits s) (jointsVelocityLimits s)); [|discriminate].
  match goal with H : (if Nat.eqb ?n 0 then _ else _) = _ |- _ => destruct (Nat.eqb n 0) end; congruence.
Qed.
Theorem C32_accepted_stored : forall st s st', setFromStruct st s = Some (st', true) -> m_settings st' = s /\ m_isValid st' = true.
Proof.
  intros st s st' H; unfold setFromStruct in H.
  destruct (limitChecks (jointsLimits s) (jointsVelocityLimits s)); [|discriminate].
  match goal with H : (if Nat.eqb ?n 0 then _ else _) = _ |- _ => destruct (Nat.eqb n 0) end; inversion H; subst; now split.
Qed.
(** Whether a structure is accepted does not depend on what is stored. *)
Theorem C32_history_independent : forall st1 st2 s r1 r2,
  setFromStruct st1 s = Some r1 -> setFromStruct st2 s = Some r2 -> snd r1 = snd r2.
Proof.
  intros st1 st2 s r1 r2 H1 H2; unfold setFromStruct in *.
  destruct (limitChecks (jointsLimits s) (jointsVelocityLimits s)); [|discriminate].
  match goal with H : (if Nat.eqb ?n 0 then _ else _) = _ |- _ => destruct (Nat.eqb n 0) end; inversion H1; inversion H2; reflexivity.
Qed.
(** Any history of calls: the validity flag is up exactly when some call was accepted,
    and the stored structure is then the one of the last accepted call. *)
Fixpoint run (st : Settings) (l : list settings) : option (Settings * list bool) :=
  match l with
  | [] => Some (st, [])
  | s :: l' => match setFromStruct st s with
               | None => None
               | Some (st', b) => match run st' l' with Some (st'', bs) => Some (st'', b :: bs) | None => None end
               end
  end.
Fixpoint last_accepted (l : list settings) (bs : list bool) (acc : option settings) : option settings :=
  match l, bs with
  | s :: l', b :: bs' => last_accepted l' bs' (if b then Some s else acc)
  | _, _ => acc
  end.
Theorem C32_history : forall l g st bs, run (newSettings g) l = Some (st, bs) ->
  match last_accepted l bs None with
  | Some s => m_settings st = s /\ m_isValid st = true /\ accepts (newSettings g) s
  | None => st = newSettings g
  end.
Proof.
  intros l g.
  assert (G : forall l st0 acc st bs,
    match acc with Some s => m_settings st0 = s /\ m_isValid st0 = true /\ accepts (newSettings g) s | None => st0 = newSettings g end ->
    run st0 l = Some (st, bs) ->
    match last_accepted l bs acc with
    | Some s => m_settings st = s /\ m_isValid st = true /\ accepts (newSettings g) s | None => st = newSettings g end).
  { clear l; induction l as [|s l IH]; intros st0 acc st bs H R; cbn [run] in R.
    - inversion R; subst; exact H.
    - destruct (setFromStruct st0 s) as [[st1 b]|] eqn:E; [|discriminate].
      destruct (run st1 l) as [[st2 bs2]|] eqn:R2; [|discriminate]. inversion R; subst. cbn [last_accepted].
      apply (IH st1 _ _ _); [|exact R2]. destruct b.
      + destruct (C32_accepted_stored _ _ _ E) as [A B]. repeat split; [exact A | exact B|].
        unfold setFromStruct in *. destruct (limitChecks (jointsLimits s) (jointsVelocityLimits s)) as [lim|] eqn:EL; [|discriminate].
        cbv zeta in E; match type of E with (if Nat.eqb ?n 0 then _ else _) = _ => destruct (Nat.eqb n 0) eqn:EN end; [|discriminate].
        exists (mkStore s true). unfold setFromStruct. rewrite EL, EN. reflexivity.
      + apply C32_rejected_unchanged in E; subst; exact H. }
  intros st bs R. exact (G l (newSettings g) None st bs eq_refl R).
Qed.
(** The constructor from a structure: valid exactly when the structure is accepted, and then it holds it
    (whatever the uninitialised flag was). *)
Theorem C32_constructor : forall g flag s st, newSettingsFrom g flag s = Some st ->
  (m_isValid st = true <-> accepts (newSettings g) s) /\ (m_isValid st = true -> m_settings st = s).
Proof.
  intros g flag s st H; unfold newSettingsFrom, accepts, setFromStruct in *.
  destruct (limitChecks (jointsLimits s) (jointsVelocityLimits s)); [|discriminate]. cbv zeta in *.
  match goal with H : context[Nat.eqb ?n 0] |- _ => destruct (Nat.eqb n 0) end;
    inversion H; subst; cbn [m_isValid m_settings]; (split; [split|]); intros X; try reflexivity; try discriminate.
  - eexists; reflexivity.
  - destruct X as [st' X]; discriminate.
Qed.
(** A history with an acceptance followed by a rejection. *)
Example C32_nonvacuous : forall g, exists good bad st, run (newSettings g) [good; bad] = Some (st, [true; false]) /\ m_settings st = good.
Proof.
  intros g. pose (good := probe (Fin 1) (Fin 1) false true false true true false true false true []).
  pose (bad := probe (Fin (-1)) (Fin 1) false true false true true false true false true []).
  exists good, bad, (mkStore good true).
  assert (A : setFromStruct (newSettings g) good = Some (mkStore good true, true)).
  { destruct (probe_accepts (newSettings g) (Fin 1) (Fin 1) false true false true true false true false true [] lt10 lt10 ltac:(auto)) as [st' E].
    destruct (C32_accepted_stored _ _ _ E) as [X Y]. destruct st' as [ms mv]; cbn [m_settings m_isValid] in *; subst ms mv; exact E. }
  split; [|reflexivity]. cbn [run]. rewrite A.
  assert (B : forall st, setFromStruct st bad = Some (st, false)).
  { intros st. unfold setFromStruct. change (limitChecks (jointsLimits bad) (jointsVelocityLimits bad)) with (Some (@nil bool)). cbv iota zeta.
    match goal with |- (if Nat.eqb ?n 0 then _ else _) = _ => destruct (Nat.eqb n 0) eqn:EE end; [|reflexivity].
    exfalso. apply Nat.eqb_eq in EE.
    assert (C : allF (checks1 bad)) by (apply countErrors_0; lia).
    unfold checks1 in C; repeat rewrite allF_cons in C. destruct C as (_ & _ & _ & _ & C & _). cbn in C.
    destruct (Rlt_dec (-1) 0); [discriminate | lra]. }
  rewrite B. reflexivity.
Qed.

(** ** C33: the only read outside a vector, and exactly when it happens. *)
Theorem C33_out_of_bounds_iff : forall st s,
  setFromStruct st s = None <-> (length (jointsVelocityLimits s) < length (jointsLimits s))%nat.
Proof.
  intros st s; unfold setFromStruct. rewrite <- limitChecks_none.
  destruct (limitChecks (jointsLimits s) (jointsVelocityLimits s)); [|tauto].
  match goal with |- (if Nat.eqb ?n 0 then _ else _) = _ <-> _ => destruct (Nat.eqb n 0) end; split; discriminate.
Qed.
(** Refuted: the defaults with one velocity limit removed. *)
Theorem C33_always_in_bounds_refuted : exists s, forall st, setFromStruct st s = None.
Proof.
  exists (mkSettings (Fin 1) (Fin 3) (Fin 1) (Fin 1) (Fin 1) robot "root_link" [] [] "l_sole" "r_sole" Classical (Fin 1) (Fin 1) (Fin 1) (Fin 1)
    PlanarClassical (Fin 1,Fin 1,Fin 1) (Fin 1) (Fin 1) 0 (Fin 1) "l_sole" "r_sole" (Fin 1) (Fin 1) (Fin 1) (Fin 1) (Fin 1) (Fin 1)
    [(Fin 0, Fin 1); (Fin 0, Fin 1); (Fin 0, Fin 1)] [(Fin 0, Fin 1); (Fin 0, Fin 1)]
    false false false (Fin 1) false false 0 false false 0 false false "" false false false [] [] false false 0 false false 0 false 0 false false 0 false false 0 false (Fin 1) false false false false false false false false false false false 0 false false false false false 0 false false false).
  intros st; apply C33_out_of_bounds_iff; cbn; lia.
Qed.
Theorem C33_no_out_of_bounds_partial : forall st s,
  (length (jointsLimits s) <= length (jointsVelocityLimits s))%nat -> setFromStruct st s <> None.
Proof. intros st s H E; apply C33_out_of_bounds_iff in E; lia. Qed.

Print Assumptions C31_accepted_iff.
Print Assumptions C31_accepted_documented.
Print Assumptions C31_missing_references_refuted.
Print Assumptions C32_history.
Print Assumptions C33_out_of_bounds_iff.
Print Assumptions C51_defaults_accepted.
