(** Properties C01-C05: labelled vectors, the solver's variable structure, and
    the conversions between states / controls and optimisation vectors. *)
From Coq Require Import Reals String List Arith Bool Lia Lra.
From Verif Require Import Spec SpecLayout SpecState Labeller LabellerProofs Layout LayoutProofs StateVectorProofs
  LabelFilters LayoutCompose SpecConstraints SpecCosts Smoothing ConstraintsModel ConstraintStatements
  CostsModel CostStatements SmoothingProofs ConstraintProofs ConstraintSemantics
  CostProofs CostProofs2 CostProofs3 CostProofs4 CostProofs5.
Import ListNotations.
Local Open Scope nat_scope.

(** ** C01 *)
(** Whatever the history of calls, the declarations since the last clear are laid
    out one after the other. *)
Theorem C01_ranges_contiguous : forall h L, lab_run lab_init h = Some L ->
  let A := declared h in
  lab_size L = total A /\ listOfLabels L = map fst A /\ NoDup (listOfLabels L) /\
  numberOfLabels L = length A /\
  (forall k n d, nth_error A k = Some (n, d) -> getIndexRange L n = Some (total (firstn k A), d)) /\
  (forall n, ~ In n (map fst A) -> getIndexRange L n = None /\ read_label L n = []).
Proof.
  intros h L H A. destruct (consistent_run h L H) as (ND & Hs & Hl & Hm & Hf & Hn). fold A in ND, Hs, Hl, Hm, Hf, Hn.
  unfold listOfLabels, numberOfLabels, getIndexRange. rewrite Hl. repeat split; auto.
  unfold read_label, label_span. rewrite (Hn n) by auto. reflexivity.
Qed.

(** Every entry of the vector belongs to exactly one label. *)
Theorem C01_entries_partitioned : forall h L, lab_run lab_init h = Some L ->
  (forall i, i < lab_size L -> exists n r, getIndexRange L n = Some r /\ in_label_range i r) /\
  (forall i n r, getIndexRange L n = Some r -> in_label_range i r -> i < lab_size L) /\
  (forall i n1 r1 n2 r2, getIndexRange L n1 = Some r1 -> getIndexRange L n2 = Some r2 ->
     in_label_range i r1 -> in_label_range i r2 -> n1 = n2).
Proof.
  intros h L H. pose proof (consistent_run h L H) as C. repeat split.
  - intros i Hi. destruct C as (ND & Hs & Hl & Hm & Hf & Hn). rewrite Hs in Hi.
    destruct (entry_owner _ i Hi) as (k & n & d & Hk & Hr).
    exists n, (total (firstn k (declared h)), d). split; auto. exact (Hf _ _ _ Hk).
  - intros i n r Hr Hi. pose proof (label_span_fits _ L n C) as F. unfold label_span in F.
    unfold getIndexRange in Hr. rewrite Hr in F. unfold in_label_range in Hi. lia.
  - intros i n1 r1 n2 r2. eapply entry_owner_unique, C.
Qed.

(** A duplicate is refused and changes nothing; a new label is accepted. *)
Theorem C01_duplicate_refused : forall h L n d, lab_run lab_init h = Some L ->
  (In n (map fst (declared h)) -> addLabel L n d = (L, false) /\ addLabelAndGetIndexRange L n d = (L, None)) /\
  (~ In n (map fst (declared h)) -> snd (addLabel L n d) = true /\
     snd (addLabelAndGetIndexRange L n d) = Some (lab_size L, d)).
Proof.
  intros h L n d H. pose proof (consistent_run h L H) as C. unfold addLabel, addLabelAndGetIndexRange. split; intros Hn.
  - now rewrite (add_body_dup _ L n d C Hn).
  - now rewrite (add_body_new _ L n d C Hn).
Qed.

Example C01_nontrivial : exists L,
  lab_run lab_init [CAdd "a" 2; CWriteLabel "a" [1%R; 2%R]; CAddRange "b" 3; CAdd "a" 7; CSetEntry 4 5%R; CZero; CAssign [1;2;3;4;5]%R] = Some L /\
  getIndexRange L "b" = Some (2, 3) /\ getIndexRange L "c" = None.
Proof. eexists. split; [reflexivity|]. split; reflexivity. Qed.

(** ** C02 *)
Theorem C02_adding_disturbs_nothing : forall h L n d, lab_run lab_init h = Some L ->
  ~ In n (map fst (declared h)) ->
  let L' := fst (addLabel L n d) in
  L' = fst (addLabelAndGetIndexRange L n d) /\
  (forall i, i < lab_size L -> read_index L' i = read_index L i) /\
  (forall i, lab_size L <= i < lab_size L + d -> read_index L' i = Some 0%R) /\
  lab_size L' = lab_size L + d /\
  (forall m, m <> n -> getIndexRange L' m = getIndexRange L m /\ read_label L' m = read_label L m) /\
  read_label L' n = repeat 0%R d.
Proof. intros h L n d H. apply add_effects. exact (consistent_run h L H). Qed.

Theorem C02_writing_one_label : forall h L n vs L', lab_run lab_init h = Some L -> write_label L n vs = Some L' ->
  (In n (map fst (declared h)) -> read_label L' n = vs) /\
  (forall m, getIndexRange L' m = getIndexRange L m) /\ listOfLabels L' = listOfLabels L /\
  lab_size L' = lab_size L /\
  (forall i, ~ in_label_range i (label_span L n) -> read_index L' i = read_index L i) /\
  (forall m, m <> n -> read_label L' m = read_label L m).
Proof. intros h L n vs L' H. apply write_label_effects. exact (consistent_run h L H). Qed.

Theorem C02_assigning_all : forall h L vs, lab_run lab_init h = Some L -> length vs = lab_size L ->
  exists L', lab_assign L vs = Some L' /\ lab_values L' = vs /\
    (forall m, getIndexRange L' m = getIndexRange L m) /\ listOfLabels L' = listOfLabels L /\ lab_size L' = lab_size L /\
    (forall k n d, nth_error (declared h) k = Some (n, d) ->
       read_label L' n = firstn d (skipn (total (firstn k (declared h))) vs)) /\
    lab_values (lab_zero L) = repeat 0%R (lab_size L) /\
    (forall m, getIndexRange (lab_zero L) m = getIndexRange L m).
Proof.
  intros h L vs H Hl. pose proof (consistent_run h L H) as (ND & Hs & Hll & Hm & Hf & Hn).
  unfold lab_assign. rewrite Hl, Nat.eqb_refl. eexists. split; [reflexivity|].
  repeat split; auto.
  - intros k n d Hk. unfold read_label, label_span. cbn [fullVector labelMap]. rewrite (Hf _ _ _ Hk). reflexivity.
  - unfold lab_values, lab_zero, lab_size. cbn [fullVector]. clear. induction (fullVector L); cbn; congruence.
Qed.

(** Writing an existing label with a vector of its size is always possible. *)
Theorem C02_write_accepted : forall h L k n d vs, lab_run lab_init h = Some L ->
  nth_error (declared h) k = Some (n, d) -> length vs = d -> exists L', write_label L n vs = Some L'.
Proof.
  intros h L k n d vs H Hk Hl. pose proof (consistent_run h L H) as (ND & Hs & Hll & Hm & Hf & Hn).
  unfold write_label, label_span. rewrite (Hf _ _ _ Hk). cbn [fst snd]. rewrite Hl, Nat.eqb_refl. eauto.
Qed.
Example C02_hypotheses_met : exists L, lab_run lab_init [CAdd "a" 2; CAdd "b" 1] = Some L /\
  write_label L "b" [7%R] <> None /\ ~ In "c"%string (map fst (declared [CAdd "a" 2; CAdd "b" 1])).
Proof. eexists. split; [reflexivity|]. split; [discriminate|]. cbn. intuition discriminate. Qed.

(** ** C03 *)
(** The structure is built, whatever the structures were before, and every range
    has the advertised place.  ([zok]: whether iDynTree considers a range of size
    zero valid; irrelevant when there is at least one joint.) *)
Theorem C03_variable_structure : forall zok dofs n S0 C0, zok = true \/ 0 < dofs ->
  exists SL CL vr, setVariablesStructure zok dofs n S0 C0 = (SL, CL, Some vr) /\
  lab_size SL = 12 * n + 16 + dofs /\ lab_size CL = 12 * n + 7 + dofs /\
  stateDimension vr = 12 * n + 16 + dofs /\ controlDimension vr = 12 * n + 7 + dofs /\
  NoDup (listOfLabels SL) /\ NoDup (listOfLabels CL) /\
  numberOfLabels SL = 4 * n + 5 /\ numberOfLabels CL = 4 * n + 3 /\
  (forall i, i < n ->
    getIndexRange SL ("LeftForcePoint" ++ decimal i) = Some (6 * i, 3) /\
    getIndexRange SL ("LeftPositionPoint" ++ decimal i) = Some (6 * i + 3, 3) /\
    getIndexRange SL ("RightForcePoint" ++ decimal i) = Some (6 * n + 6 * i, 3) /\
    getIndexRange SL ("RightPositionPoint" ++ decimal i) = Some (6 * n + 6 * i + 3, 3) /\
    getIndexRange CL ("LeftVelocityControlPoint" ++ decimal i) = Some (6 * i, 3) /\
    getIndexRange CL ("LeftForceControlPoint" ++ decimal i) = Some (6 * i + 3, 3) /\
    getIndexRange CL ("RightVelocityControlPoint" ++ decimal i) = Some (6 * n + 6 * i, 3) /\
    getIndexRange CL ("RightForceControlPoint" ++ decimal i) = Some (6 * n + 6 * i + 3, 3)) /\
  getIndexRange SL "Momentum" = Some (12 * n, 6) /\ getIndexRange SL "CoMPosition" = Some (12 * n + 6, 3) /\
  getIndexRange SL "BasePosition" = Some (12 * n + 9, 3) /\ getIndexRange SL "BaseQuaternion" = Some (12 * n + 12, 4) /\
  getIndexRange SL "JointsPosition" = Some (12 * n + 16, dofs) /\
  getIndexRange CL "BaseLinearVelocity" = Some (12 * n, 3) /\
  getIndexRange CL "BaseQuaternionDerivative" = Some (12 * n + 3, 4) /\
  getIndexRange CL "JointsVelocity" = Some (12 * n + 7, dofs).
Proof.
  intros zok dofs n S0 C0 Hz. destruct (setVariablesStructure_ok zok dofs n S0 C0 Hz) as (SL & CL & E & HS & HC).
  exists SL, CL, (layout dofs n). split; [exact E|].
  pose proof HS as (NS & Ss & Sl & Sm & _). pose proof HC as (NC & Cs & Cl & Cm & _).
  unfold listOfLabels, numberOfLabels. rewrite Sl, Cl, Sm, Cm.
  assert (FL : forall (f : nat -> list (string * nat)) l, (forall x, length (f x) = 2) -> length (flat_map f l) = 2 * length l).
  { intros f l Hf. induction l; cbn [flat_map length]; auto. rewrite app_length, Hf, IHl. lia. }
  split. { rewrite Ss. unfold state_decl. tot. }
  split. { rewrite Cs. unfold control_decl. tot. }
  split; [reflexivity|]. split; [reflexivity|]. split; [auto|]. split; [auto|].
  split. { unfold state_decl. rewrite !app_length, !FL, !seq_length by reflexivity. cbn [length]. lia. }
  split. { unfold control_decl. rewrite !app_length, !FL, !seq_length by reflexivity. cbn [length]. lia. }
  split.
  { intros i Hi.
    repeat split; [apply (state_lookup dofs n SL (SF true i))|apply (state_lookup dofs n SL (SP true i))
      |apply (state_lookup dofs n SL (SF false i))|apply (state_lookup dofs n SL (SP false i))
      |apply (control_lookup dofs n CL (CV true i))|apply (control_lookup dofs n CL (CF true i))
      |apply (control_lookup dofs n CL (CV false i))|apply (control_lookup dofs n CL (CF false i))]; auto. }
  repeat split; [apply (state_lookup dofs n SL SMom)|apply (state_lookup dofs n SL SCom)
      |apply (state_lookup dofs n SL SBase)|apply (state_lookup dofs n SL SQuat)|apply (state_lookup dofs n SL SJoint)
      |apply (control_lookup dofs n CL CLin)|apply (control_lookup dofs n CL CQuat)|apply (control_lookup dofs n CL CJoint)]; auto;
   exact I.
Qed.

(** If empty ranges are invalid, a robot without joints is refused. *)
Theorem C03_no_joints_refused : forall n S0 C0, snd (setVariablesStructure false 0 n S0 C0) = None.
Proof. exact setVariablesStructure_no_joints. Qed.

(** The costs and constraints that scan the labels find exactly the points meant. *)
Theorem C03_label_scans : forall zok dofs n S0 C0 SL CL vr,
  setVariablesStructure zok dofs n S0 C0 = (SL, CL, Some vr) ->
  mean_points SL = map (fun i => 6 * i + 3) (seq 0 (2 * n)) /\
  feet_points SL = map (fun i => (6 * i + 3, true)) (seq 0 n) ++ map (fun i => (6 * n + 6 * i + 3, false)) (seq 0 n) /\
  (forall i, i < n -> force_others SL "Left" i = map (fun j => 6 * j) (filter (fun j => negb (j =? i)) (seq 0 n))) /\
  (forall i, i < n -> force_others SL "Right" i = map (fun j => 6 * n + 6 * j) (filter (fun j => negb (j =? i)) (seq 0 n))).
Proof.
  intros zok dofs n S0 C0 SL CL vr H. destruct (setVariablesStructure_some _ _ _ _ _ _ _ _ H) as (_ & HS & HC).
  repeat split.
  - exact (mean_points_are dofs n SL HS).
  - exact (feet_points_are dofs n SL HS).
  - intros i Hi. exact (force_others_are dofs n SL HS true i Hi).
  - intros i Hi. exact (force_others_are dofs n SL HS false i Hi).
Qed.

(** Exactness of the point costs and constraints as the solver builds them, with
    no hypothesis on the layout left (C11, C15, C16, C18, C22, C23). *)
Section Built.
Context (zok : bool) (dofs n : nat) (S0 C0 SL CL : labeller) (vr : var_ranges).
Hypothesis built : setVariablesStructure zok dofs n S0 C0 = (SL, CL, Some vr).
Definition foot_of (lft : bool) : string := if lft then "Left"%string else "Right"%string.

Lemma built_S : consistent (state_decl dofs n) SL. Proof. eapply setVariablesStructure_some, built. Qed.
Lemma built_C : consistent (control_decl dofs n) CL. Proof. eapply setVariablesStructure_some, built. Qed.

Theorem C11_force_control_exact_built : forall lft i c x0 u0, i < n ->
  cfc_pos c = pos_off SL (foot_of lft) i -> cfc_force c = force_own SL (foot_of lft) i ->
  constraint_exact cfc_class (reach cfc_class no_other (cfc_ctor c x0 u0)) 1 cfc_value cfc_patterns.
Proof.
  intros lft i c x0 u0 Hi Hp Hf. apply cfc_exact. rewrite Hp, Hf.
  change (foot_of lft) with (foot_name lft).
  rewrite (pos_off_is dofs n SL built_S), (force_own_is dofs n SL built_S) by auto. unfold disjoint3. lia.
Qed.
Theorem C15_complementarity_exact_built : forall lft i c x0 u0, i < n ->
  cc_pos c = pos_off SL (foot_of lft) i -> cc_force c = force_own SL (foot_of lft) i ->
  constraint_exact cc_class (reach cc_class no_other (cc_ctor c x0 u0)) 1 cc_value cc_patterns.
Proof.
  intros lft i c x0 u0 Hi Hp Hf. apply cc_exact. rewrite Hp, Hf.
  change (foot_of lft) with (foot_name lft).
  rewrite (pos_off_is dofs n SL built_S), (force_own_is dofs n SL built_S) by auto. unfold disjoint3. lia.
Qed.
Theorem C16_dynamical_complementarity_exact_built : forall lft i c x0 u0, i < n ->
  dc_pos c = pos_off SL (foot_of lft) i -> dc_force c = force_own SL (foot_of lft) i ->
  dc_vel c = vel_off CL (foot_of lft) i -> dc_fctl c = fctl_off CL (foot_of lft) i ->
  constraint_exact dc_class (reach dc_class no_other (dc_ctor c x0 u0)) 1 dc_value dc_patterns.
Proof.
  intros lft i c x0 u0 Hi Hp Hf Hv Hg. apply dc_exact; rewrite ?Hp, ?Hf, ?Hv, ?Hg;
  change (foot_of lft) with (foot_name lft).
  - rewrite (pos_off_is dofs n SL built_S), (force_own_is dofs n SL built_S) by auto. unfold disjoint3. lia.
  - rewrite (vel_off_is dofs n CL built_C), (fctl_off_is dofs n CL built_C) by auto. unfold disjoint3. lia.
Qed.
Theorem C18_feet_height_exact_built : forall mx x0 u0, 0 < n ->
  constraint_exact fh_class (reach fh_class no_other (fh_ctor (height_cfg SL mx) x0 u0)) 1 fh_value fh_patterns.
Proof.
  intros mx x0 u0 Hn. apply fh_exact.
  rewrite (height_left_are dofs n SL built_S), (height_right_are dofs n SL built_S). apply two_feet_disjoint.
Qed.
Theorem C22_force_mean_exact_built : forall lft i x0 u0, i < n ->
  cost_exact fm_class (kreach fm_class no_other
    (fm_ctor {| fm_own := force_own SL (foot_of lft) i; fm_others := force_others SL (foot_of lft) i |} x0 u0))
    always_valid fm_value fm_sup.
Proof.
  intros lft i x0 u0 Hi. apply fm_exact. cbn [fm_own fm_others]. change (foot_of lft) with (foot_name lft).
  rewrite (force_own_is dofs n SL built_S), (force_others_are dofs n SL built_S) by auto. apply forces_disjoint.
Qed.
Theorem C22_force_ratio_exact_built : forall lft i x0 u0, i < n ->
  cost_exact frt_class (kreach frt_class frt_other
    (frt_ctor (force_own SL (foot_of lft) i) (force_others SL (foot_of lft) i) x0 u0)) always_valid frt_value frt_sup.
Proof.
  intros lft i x0 u0 Hi. apply frt_exact. change (foot_of lft) with (foot_name lft).
  rewrite (force_own_is dofs n SL built_S), (force_others_are dofs n SL built_S) by auto. apply forces_disjoint.
Qed.
Theorem C23_mean_point_exact_built : forall x0 u0, 0 < n ->
  cost_exact mp_class (kreach mp_class mp_other (mp_ctor (mean_points SL) x0 u0)) mp_valid mp_value mp_sup.
Proof.
  intros x0 u0 Hn. rewrite (mean_points_are dofs n SL built_S). apply mp_exact.
  - destruct n; [lia|discriminate].
  - apply mean_points_disjoint.
Qed.
Theorem C23_feet_distance_exact_built : forall x0 u0, 0 < n ->
  cost_exact fd_class (kreach fd_class no_other (fd_ctor (feet_points SL) x0 u0)) always_valid fd_value (fd_sup (feet_points SL)).
Proof.
  intros x0 u0 Hn. rewrite (feet_points_are dofs n SL built_S).
  destruct n as [|k]; [lia|]. apply fd_exact; try discriminate.
  - unfold side. cbn [seq map app filter snd Bool.eqb]. rewrite filter_app. intros E.
    apply map_eq_nil in E. apply app_eq_nil in E. destruct E as [_ E]. discriminate.
  - rewrite map_app, !map_map. apply two_feet_disjoint.
Qed.
End Built.

Example C03_example : exists SL CL vr, setVariablesStructure false 23 4 lab_init lab_init = (SL, CL, Some vr).
Proof. destruct (C03_variable_structure false 23 4 lab_init lab_init ltac:(right; lia)) as (S & C & v & E & _). eauto. Qed.

(** ** C04 *)
Section RoundTrip.
Context {Rot : Type} (asQuaternion : Rot -> V4) (fromQuaternion : V4 -> Rot).
Context (zok : bool) (dofs n : nat) (S0 C0 SL CL : labeller) (vr : var_ranges).
Hypothesis built : setVariablesStructure zok dofs n S0 C0 = (SL, CL, Some vr).

(** The initial state vector is the documented one, whatever the memory held. *)
Theorem C04_initial_state_vector : forall junk s, (forall k, length (junk k) = k) -> state_sized s dofs n ->
  fillInitialState asQuaternion junk vr s = Some (state_vector asQuaternion s).
Proof.
  intros junk s Hj Hs. destruct (setVariablesStructure_some _ _ _ _ _ _ _ _ built) as (-> & _). now apply fillInitialState_ok.
Qed.

(** State guesses. *)
Theorem C04_state_guess : forall buffer s valid, length buffer = stateDimension vr ->
  (valid = true /\ state_sized s dofs n /\
     stateGuess_get asQuaternion vr buffer (s, valid) = Some (state_vector asQuaternion s, true)) \/
  (~ (valid = true /\ state_sized s dofs n) /\
     stateGuess_get asQuaternion vr buffer (s, valid) = Some (repeat 0%R (stateDimension vr), false)).
Proof. destruct (setVariablesStructure_some _ _ _ _ _ _ _ _ built) as (-> & _). intros. now apply stateGuess_cases. Qed.

(** Reading a vector of the optimiser gives the state it represents. *)
Theorem C04_reading_a_vector : forall v t old, length v = stateDimension vr -> state_sized old dofs n ->
  exists s q, setStateFromVariables fromQuaternion vr v t old = Some s /\
    v = state_vector (fun _ => q) s /\ state_sized s dofs n /\
    baseRotation s = fromQuaternion (normalized4 q) /\ stateTime s = t.
Proof.
  destruct (setVariablesStructure_some _ _ _ _ _ _ _ _ built) as (-> & _). intros v t old Hv Ho.
  destruct (parse_state (baseRotation old) t v dofs n Hv) as (s & q & -> & Hs).
  eexists _, q. split; [apply (read_vector fromQuaternion s old q dofs n t Hs Ho)|].
  split; [reflexivity|]. split; [exact Hs|]. split; reflexivity.
Qed.

(** Round trip. *)
Theorem C04_round_trip : forall s old t, state_sized s dofs n -> state_sized old dofs n ->
  setStateFromVariables fromQuaternion vr (state_vector asQuaternion s) t old =
  Some (mkState (leftContactPointsState s) (rightContactPointsState s) (momentumInCoM s) (comPosition s)
                (basePosition s) (fromQuaternion (normalized4 (asQuaternion (baseRotation s)))) (jointsConfiguration s) t).
Proof.
  destruct (setVariablesStructure_some _ _ _ _ _ _ _ _ built) as (-> & _). intros s old t Hs Ho.
  exact (read_vector fromQuaternion s old (asQuaternion (baseRotation s)) dofs n t Hs Ho).
Qed.
Theorem C04_round_trip_identity : 
  (forall r, fromQuaternion (asQuaternion r) = r) -> (forall r, sqnorm4 (asQuaternion r) = 1%R) ->
  forall s old, state_sized s dofs n -> state_sized old dofs n ->
  setStateFromVariables fromQuaternion vr (state_vector asQuaternion s) (stateTime s) old = Some s.
Proof.
  intros H1 H2 s old Hs Ho. rewrite C04_round_trip by auto. rewrite normalized4_unit, H1 by auto. now destruct s.
Qed.
End RoundTrip.

(** The hypotheses on the rotation conversions are met, e.g., by unit quaternions with a non-negative
    leading entry... here by the two-element group {identity, half turn about z}. *)
Example C04_hypotheses_met : let asQ := fun b : bool => if b then (1,0,0,0)%R else (0,0,0,1)%R in
  exists fromQ, (forall r, fromQ (asQ r) = r) /\ (forall r, sqnorm4 (asQ r) = 1%R).
Proof.
  exists (fun q => let '(a,_,_,_) := q in if Req_EM_T a 1 then true else false). split.
  - intros []; cbn; destruct (Req_EM_T _ _); auto; lra.
  - intros []; cbn; ring.
Qed.

(** ** C05 *)
Section RoundTripControl.
Context (zok : bool) (dofs n : nat) (S0 C0 SL CL : labeller) (vr : var_ranges).
Hypothesis built : setVariablesStructure zok dofs n S0 C0 = (SL, CL, Some vr).

Theorem C05_control_guess : forall buffer c valid, length buffer = controlDimension vr ->
  (valid = true /\ control_sized c dofs n /\
     controlGuess_get vr buffer (c, valid) = Some (control_vector c, true)) \/
  (~ (valid = true /\ control_sized c dofs n) /\
     controlGuess_get vr buffer (c, valid) = Some (repeat 0%R (controlDimension vr), false)).
Proof. destruct (setVariablesStructure_some _ _ _ _ _ _ _ _ built) as (-> & _). intros. now apply controlGuess_cases. Qed.

Theorem C05_reading_a_vector : forall v t old, length v = controlDimension vr -> control_sized old dofs n ->
  exists c, setControlFromVariables vr v t old = Some c /\ v = control_vector c /\
    control_sized c dofs n /\ controlTime c = t.
Proof.
  destruct (setVariablesStructure_some _ _ _ _ _ _ _ _ built) as (-> & _). intros v t old Hv Ho.
  destruct (parse_control t v dofs n Hv) as (c & -> & Hc).
  eexists. split; [apply (read_vectorC c old dofs n t Hc Ho)|].
  split; [reflexivity|]. split; [exact Hc|]. reflexivity.
Qed.

Theorem C05_round_trip : forall c old, control_sized c dofs n -> control_sized old dofs n ->
  setControlFromVariables vr (control_vector c) (controlTime c) old = Some c.
Proof.
  destruct (setVariablesStructure_some _ _ _ _ _ _ _ _ built) as (-> & _). intros c old Hc Ho.
  rewrite (read_vectorC c old dofs n _ Hc Ho). now destruct c.
Qed.
End RoundTripControl.

Print Assumptions C01_ranges_contiguous. Print Assumptions C01_entries_partitioned. Print Assumptions C01_duplicate_refused.
Print Assumptions C02_adding_disturbs_nothing. Print Assumptions C02_writing_one_label. Print Assumptions C02_assigning_all.
Print Assumptions C02_write_accepted. Print Assumptions C03_variable_structure. Print Assumptions C03_no_joints_refused.
Print Assumptions C03_label_scans. Print Assumptions C11_force_control_exact_built. Print Assumptions C15_complementarity_exact_built.
Print Assumptions C16_dynamical_complementarity_exact_built. Print Assumptions C18_feet_height_exact_built.
Print Assumptions C22_force_mean_exact_built. Print Assumptions C22_force_ratio_exact_built.
Print Assumptions C23_mean_point_exact_built. Print Assumptions C23_feet_distance_exact_built.
Print Assumptions C04_initial_state_vector. Print Assumptions C04_state_guess. Print Assumptions C04_reading_a_vector.
Print Assumptions C04_round_trip. Print Assumptions C04_round_trip_identity. Print Assumptions C05_control_guess.
Print Assumptions C05_reading_a_vector. Print Assumptions C05_round_trip.
