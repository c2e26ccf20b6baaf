(** Proofs about ProblemModel. *)
From Coq Require Import String Reals List Arith Bool Lia Lra.
From Verif Require Import SpecState SpecSettings SpecLayout SpecProblem Labeller ProblemModel LayoutProofs.
Import ListNotations.
Local Open Scope R_scope.

(** * Running actions *)
Definition added_by {T} (a : action T) : list T := match a with Add t => [t] | _ => [] end.
Definition additions {T} (l : list (action T)) : list T := flat_map added_by l.
Definition passes {T} (a : action T) : Prop := match a with Check b | Assert b => b = true | Add _ => True end.

Section Run.
Context {T : Type}.
Variable name : T -> string.
Variable accepts : T -> bool.
Notation perform := (perform name accepts).

Lemma perform_true l : forall ts0 ts, perform l ts0 = Returned true ts ->
  ts = ts0 ++ additions l /\ Forall passes l /\ Forall (fun t => accepts t = true) (additions l).
Proof.
  induction l as [|a l IH]; intros ts0 ts; cbn [ProblemModel.perform].
  - intros H. injection H as <-. cbn. rewrite app_nil_r. repeat split; constructor.
  - destruct a as [b|b|t]; cbn [additions flat_map added_by app].
    + destruct b; [|discriminate]. intros H. destruct (IH _ _ H) as (A & B & C). split; [exact A|]. split; [constructor; [reflexivity|exact B]|exact C].
    + destruct b; [|discriminate]. intros H. destruct (IH _ _ H) as (A & B & C). split; [exact A|]. split; [constructor; [reflexivity|exact B]|exact C].
    + destruct (existsb _ ts0 || negb (accepts t)) eqn:E; [discriminate|]. intros H. destruct (IH _ _ H) as (A & B & C).
      rewrite A, <- app_assoc. split; [reflexivity|]. apply orb_false_iff in E. destruct E as [_ E]. apply negb_false_iff in E.
      split; [constructor; [exact Logic.I|exact B]|constructor; assumption].
Qed.
Lemma perform_any l : forall ts0, exists k b, (exists ok, perform l ts0 = Returned ok (ts0 ++ firstn k (additions l)) /\ b = true) \/ (perform l ts0 = Aborted (ts0 ++ firstn k (additions l)) /\ b = false).
Proof.
  induction l as [|a l IH]; intros ts0; cbn [ProblemModel.perform].
  - exists 0%nat, true. left. exists true. cbn. rewrite app_nil_r. auto.
  - destruct a as [b|b|t]; cbn [additions flat_map added_by app].
    + destruct b; [apply IH|]. exists 0%nat, true. left. exists false. cbn [firstn]. rewrite app_nil_r. auto.
    + destruct b; [apply IH|]. exists 0%nat, false. right. cbn [firstn]. rewrite app_nil_r. auto.
    + destruct (existsb _ ts0 || negb (accepts t)) eqn:E.
      * exists 0%nat, true. left. exists false. cbn [firstn]. rewrite app_nil_r. auto.
      * destruct (IH (ts0 ++ [t])) as (k & b & H). exists (S k), b. cbn [firstn]. rewrite <- app_assoc in H. exact H.
Qed.
Lemma perform_ok l : forall ts0, NoDup (map name (ts0 ++ additions l)) -> Forall passes l -> (forall t, In t (additions l) -> accepts t = true) ->
  perform l ts0 = Returned true (ts0 ++ additions l).
Proof.
  induction l as [|a l IH]; intros ts0 N P A; cbn [ProblemModel.perform].
  - cbn. rewrite app_nil_r. reflexivity.
  - inversion P as [|? ? Pa Pl]; subst. destruct a as [b|b|t]; cbn [additions flat_map added_by app] in *.
    + cbn in Pa. subst b. apply IH; auto.
    + cbn in Pa. subst b. apply IH; auto.
    + assert (E : existsb (fun t' => String.eqb (name t') (name t)) ts0 = false).
      { apply not_true_is_false. intros E. apply existsb_exists in E. destruct E as (t' & I & E). apply String.eqb_eq in E.
        rewrite map_app in N. cbn [map] in N. apply nodup_mid in N. apply N. rewrite <- E. apply in_map. exact I. }
      rewrite E, (A t (or_introl eq_refl)). cbn [orb negb].
      assert (Q : ts0 ++ t :: flat_map added_by l = (ts0 ++ [t]) ++ flat_map added_by l) by (rewrite <- app_assoc; reflexivity).
      rewrite Q in *. apply IH; auto. intros x Hx. apply A. right. exact Hx.
Qed.
End Run.

Lemma additions_app {T} (a b : list (action T)) : additions (a ++ b) = additions a ++ additions b.
Proof. apply flat_map_app. Qed.
Lemma additions_when {T} b (l : list (action T)) : additions (when b l) = when b (additions l).
Proof. destruct b; reflexivity. Qed.
Lemma additions_for {T} n (f : nat -> list (action T)) : additions (for_points n f) = for_points n (fun i => additions (f i)).
Proof. unfold for_points. induction (seq 0 n) as [|i l IH]; cbn [flat_map]; [reflexivity|]. rewrite additions_app, IH. reflexivity. Qed.
Lemma in_when {A} b (l : list A) x : In x (when b l) <-> b = true /\ In x l.
Proof. destruct b; cbn; intuition discriminate. Qed.
Lemma in_for {A} n (f : nat -> list A) x : In x (for_points n f) <-> exists i, (i < n)%nat /\ In x (f i).
Proof.
  unfold for_points. rewrite in_flat_map. split; intros (i & H & K); exists i; split; auto; rewrite in_seq in *; lia.
Qed.
Lemma Forall_when {A} (P : A -> Prop) b l : Forall P (when b l) <-> (b = true -> Forall P l).
Proof. destruct b; cbn; intuition. discriminate. Qed.
Lemma Forall_for {A} (P : A -> Prop) n f : Forall P (for_points n f) <-> forall i, (i < n)%nat -> Forall P (f i).
Proof.
  rewrite Forall_forall. split.
  - intros H i Hi. apply Forall_forall. intros x Hx. apply H. apply in_for. eauto.
  - intros H x Hx. apply in_for in Hx. destruct Hx as (i & Hi & Hx). apply (proj1 (Forall_forall _ _) (H i Hi)). exact Hx.
Qed.

(** * Names *)
Lemma cost_name_inj a b : cost_name a = cost_name b -> a = b.
Proof.
  destruct a; try destruct s; destruct b; try destruct s; cbn; intros H; try discriminate H; try reflexivity;
    injection H as H; apply decimal_inj in H; subst; reflexivity.
Qed.
Lemma limit_name_inj a b : limit_name a = limit_name b -> a = b.
Proof.
  destruct a; try destruct s; destruct b; try destruct s; cbn; intros H; try discriminate H; try reflexivity;
    injection H as H; apply decimal_inj in H; subst; reflexivity.
Qed.

(** * Blocks with different tags *)
Lemma NoDup_tagged {A} (tag : A -> nat) (bs : list (list A)) : forall s,
  (forall k b, nth_error bs k = Some b -> NoDup b /\ Forall (fun x => tag x = s + k)%nat b) -> NoDup (concat bs).
Proof.
  induction bs as [|b bs IH]; intros s H; cbn [concat]; [constructor|].
  apply NoDup_app_intro.
  - apply (H 0%nat b eq_refl).
  - apply (IH (S s)). intros k b' E. destruct (H (S k) b' E) as [N F]. split; [exact N|]. eapply Forall_impl; [|exact F]. cbn. intros; lia.
  - intros x Hx Hx'. destruct (H 0%nat b eq_refl) as [_ F]. rewrite Forall_forall in F. specialize (F x Hx).
    apply in_concat in Hx'. destruct Hx' as (b' & I & Hb'). apply In_nth_error in I. destruct I as (k & I).
    destruct (H (S k) b' I) as [_ F']. rewrite Forall_forall in F'. specialize (F' x Hb'). lia.
Qed.

(** * The costs *)
Section Costs.
Variable st : problem_settings.
Variables SL CL : labeller.
Variable weights_ok : option (nat * nat) -> list R -> bool.
Variable reference_ok : object -> bool.
Variable torques_ok : list R -> bool.
Notation program := (setCosts st SL CL weights_ok reference_ok torques_ok).
Notation x := (getIndexRange SL).
Notation u := (getIndexRange CL).

(** The weight and the data the code gives. *)
Definition given_weight (c : cost) : R := match c with KForceRatio _ _ => meanForceWeight st | _ => own_weight st c end.
Definition given_data (c : cost) : list datum :=
  match c with
  | KMeanPointPosition => [kept (meanPointReference st); TimeWeight (meanPointTimeWeight st)]
  | KFrameAngularVelocity => [Frame (frameName st); Number (pidGain st); kept (rotationReference st)]
  | _ => own_data st x u c
  end.
Definition given (c : cost) : term := mkTerm c (given_weight c) (own_range st c) (given_data c).

(** Every addition, as a list of costs. *)
Definition both (k : side -> nat -> cost) : list cost :=
  for_points (length (leftPts st)) (fun i => [k Left i]) ++ for_points (length (rightPts st)) (fun i => [k Right i]).
Definition blocks : list (list cost) :=
  [ when (comActive st) [KCoM]; when (comVelActive st) [KCoMVelocity]; when (frameActive st) [KFrameOrientation];
    when (meanForceActive st) (both KForceMean); when (ratioActive st) (both KForceRatio);
    when (jointsActive st) [KJointsRegularization]; when (jointsVelActive st) [KJointsVelocity]; when (torquesActive st) [KStaticTorques];
    when (forceDerActive st) (both KForceDerivative); when (accActive st) (both KPointAcceleration);
    when (swingActive st) (both KSwing); when (phantomActive st) (both KPhantomForces);
    when (meanPointActive st) [KMeanPointPosition]; when (leftYawActive st) [KFootYaw Left]; when (rightYawActive st) [KFootYaw Right];
    when (distanceActive st) [KFeetDistance]; when (posturalActive st) [KVelocityForPostural];
    when (complCostActive st) (both KComplementarity);
    when (baseActive st) [KBasePosition]; when (quatActive st) [KBaseQuaternion]; when (frameVelActive st) [KFrameAngularVelocity];
    when (baseVelActive st) [KBaseLinearVelocity]; when (quatVelActive st) [KBaseQuaternionVelocity]; when (angMomActive st) [KAngularMomentum] ].
Definition listed : list cost := concat blocks.

(** What is checked before a cost is added. *)
Definition needs (c : cost) : list (action term) :=
  match c with
  | KCoM => [Check (weights_ok (x "CoMPosition") (comWeightVector st)); Check (reference_ok (comReference st))]
  | KCoMVelocity => [Check (weights_ok (part (x "Momentum") 0 3) (comVelWeightVector st)); Assert (present (comVelReference st))]
  | KFrameOrientation => [Check (present (rotationReference st)); Assert (present (frameTimeWeight st))]
  | KForceRatio s i => [Assert (i <? length (ratios st s))%nat]
  | KJointsRegularization => [Check (weights_ok (x "JointsPosition") (jointsWeightVector st)); Check (reference_ok (jointsReference st))]
  | KJointsVelocity => [Check (weights_ok (u "JointsVelocity") (jointsVelWeightVector st)); Check (reference_ok (jointsVelReference st))]
  | KStaticTorques => [Check (torques_ok (torquesWeightVector st))]
  | KForceDerivative s i => [Check (weights_ok (u (point_name s "ForceControlPoint" i)) (forceDerWeightVector st)); Check (reference_ok (forceDerReference st))]
  | KPointAcceleration s i => [Check (weights_ok (u (point_name s "VelocityControlPoint" i)) (accWeightVector st)); Check (reference_ok (accReference st))]
  | KMeanPointPosition => [Assert (present (meanPointTimeWeight st))]
  | KFootYaw Left => [Assert (present (leftYawReference st))] | KFootYaw Right => [Assert (present (rightYawReference st))]
  | KBasePosition => [Check (weights_ok (x "BasePosition") (baseWeightVector st)); Check (reference_ok (baseReference st))]
  | KBaseQuaternion => [Check (reference_ok (quatReference st))]
  | KBaseLinearVelocity => [Check (weights_ok (u "BaseLinearVelocity") (baseVelWeightVector st)); Check (reference_ok (baseVelReference st))]
  | KBaseQuaternionVelocity => [Check (reference_ok (quatVelReference st))]
  | _ => []
  end%string.
Definition acts (c : cost) : list (action term) := needs c ++ [Add (given c)].

Lemma when_flat {A B} (g : A -> list B) b l : flat_map g (when b l) = when b (flat_map g l).
Proof. destruct b; reflexivity. Qed.
Lemma for_flat {A B} (g : A -> list B) n (f : nat -> list A) : flat_map g (for_points n f) = for_points n (fun i => flat_map g (f i)).
Proof. unfold for_points. induction (seq 0 n) as [|i l IH]; cbn [flat_map]; [reflexivity|]. rewrite flat_map_app, IH. reflexivity. Qed.
Lemma both_acts (k : side -> nat -> cost) f g :
  (forall i, f i = acts (k Left i)) -> (forall i, g i = acts (k Right i)) ->
  for_points (lsize st) f ++ for_points (rsize st) g = flat_map acts (both k).
Proof.
  intros F G. unfold both. rewrite flat_map_app, !for_flat. unfold lsize, rsize, for_points. f_equal.
  - apply flat_map_ext. intros i. rewrite F. cbn [flat_map]. rewrite app_nil_r. reflexivity.
  - apply flat_map_ext. intros i. rewrite G. cbn [flat_map]. rewrite app_nil_r. reflexivity.
Qed.
Lemma program_acts : program = flat_map acts listed.
Proof.
  unfold setCosts, listed, blocks. cbn [concat]. rewrite app_nil_r, !flat_map_app.
  repeat match goal with |- ?a ++ _ = ?b ++ _ => apply f_equal2 end;
    unfold com_cost, com_velocity_cost, frame_cost, force_mean_cost, force_ratio_cost, joints_cost, joints_velocity_cost, torques_cost,
      force_derivative_cost, acceleration_cost, swing_cost, phantom_cost, mean_point_cost, left_yaw_cost, right_yaw_cost, distance_cost,
      postural_cost, complementarity_cost, base_cost, quaternion_cost, frame_velocity_cost, base_velocity_cost, quaternion_velocity_cost, angular_momentum_cost;
    rewrite when_flat; apply f_equal; try reflexivity; apply both_acts; intros i; reflexivity.
Qed.
Lemma additions_flat {T S} (f : S -> list (action T)) l : additions (flat_map f l) = flat_map (fun c => additions (f c)) l.
Proof. induction l as [|c l IH]; cbn [flat_map]; [reflexivity|]. rewrite additions_app, IH. reflexivity. Qed.
Lemma flat_single {A B} (f : A -> B) l : flat_map (fun c => [f c]) l = map f l.
Proof. induction l as [|c l IH]; cbn [flat_map map app]; [reflexivity|]. rewrite IH. reflexivity. Qed.
Lemma additions_program : additions program = map given listed.
Proof.
  rewrite program_acts, additions_flat, <- flat_single. apply flat_map_ext. intros c. unfold acts. rewrite additions_app.
  destruct c; try destruct s; reflexivity.
Qed.

Definition tag (c : cost) : nat :=
  match c with
  | KCoM => 0 | KCoMVelocity => 1 | KFrameOrientation => 2 | KForceMean _ _ => 3 | KForceRatio _ _ => 4 | KJointsRegularization => 5
  | KJointsVelocity => 6 | KStaticTorques => 7 | KForceDerivative _ _ => 8 | KPointAcceleration _ _ => 9 | KSwing _ _ => 10
  | KPhantomForces _ _ => 11 | KMeanPointPosition => 12 | KFootYaw Left => 13 | KFootYaw Right => 14 | KFeetDistance => 15
  | KVelocityForPostural => 16 | KComplementarity _ _ => 17 | KBasePosition => 18 | KBaseQuaternion => 19 | KFrameAngularVelocity => 20
  | KBaseLinearVelocity => 21 | KBaseQuaternionVelocity => 22 | KAngularMomentum => 23
  end.
Lemma for_single {A} n (f : nat -> A) : for_points n (fun i => [f i]) = map f (seq 0 n).
Proof. unfold for_points. induction (seq 0 n) as [|i l IH]; cbn [flat_map map app]; [reflexivity|]. rewrite IH. reflexivity. Qed.
Lemma both_NoDup (k : side -> nat -> cost) : (forall s i s' i', k s i = k s' i' -> s = s' /\ i = i') -> NoDup (both k).
Proof.
  intros J. unfold both. rewrite !for_single. apply NoDup_app_intro.
  - apply NoDup_map_inj; [|apply seq_NoDup]. intros a b H. apply J in H. tauto.
  - apply NoDup_map_inj; [|apply seq_NoDup]. intros a b H. apply J in H. tauto.
  - intros c A B. apply in_map_iff in A. apply in_map_iff in B. destruct A as (i & A & _), B as (j & B & _). subst c. apply J in B. destruct B; discriminate.
Qed.
Lemma in_both k c : In c (both k) <-> exists s i, c = k s i /\ (i < length (pts st s))%nat.
Proof.
  unfold both. rewrite in_app_iff, !in_for. split.
  - intros [(i & Hi & [H|[]])|(i & Hi & [H|[]])]; subst; [exists Left, i|exists Right, i]; auto.
  - intros (s & i & -> & Hi). destruct s; [left|right]; exists i; cbn; auto.
Qed.
Lemma listed_NoDup : NoDup listed.
Proof.
  apply NoDup_tagged with (tag := tag) (s := 0%nat). intros k b H. unfold blocks in H.
  assert (B1 : forall f c, NoDup (when f [c]) /\ Forall (fun c' => tag c' = tag c) (when f [c])).
  { intros f c. destruct f; cbn; split; repeat constructor; intros []. }
  assert (B2 : forall f (kk : side -> nat -> cost) t, (forall s i s' i', kk s i = kk s' i' -> s = s' /\ i = i') -> (forall s i, tag (kk s i) = t) ->
    NoDup (when f (both kk)) /\ Forall (fun c' => tag c' = t) (when f (both kk))).
  { intros f kk t J T. destruct f; cbn [when]; [|split; constructor]. split; [apply both_NoDup; exact J|].
    apply Forall_forall. intros c I. apply in_both in I. destruct I as (s & i & -> & _). apply T. }
  do 24 (destruct k as [|k]; [cbn [nth_error] in H; injection H as <-; first [apply B1 | apply B2; [intros s i s' i' E; injection E; auto | reflexivity]]|]).
  destruct k; discriminate H.
Qed.
Lemma in_listed c : In c listed <-> asked st c.
Proof.
  unfold listed, blocks. cbn [concat]. rewrite app_nil_r, !in_app_iff, !in_when, !in_both. split.
  - intros H. repeat match goal with H : _ \/ _ |- _ => destruct H as [H|H] end; destruct H as [A B];
      first [destruct B as [<-|[]] | destruct B as (s & i & -> & B)]; cbn [asked]; auto.
  - destruct c; try destruct s; cbn [asked]; intros H;
      repeat first [ solve [left; split; [exact H|left; reflexivity]]
                   | solve [left; split; [exact (proj1 H)|eexists _, _; split; [reflexivity|exact (proj2 H)]]]
                   | solve [split; [exact H|left; reflexivity]]
                   | right ].
Qed.
Lemma passes_program : Forall passes program <-> forall c, asked st c -> Forall passes (needs c).
Proof.
  rewrite program_acts, Forall_flat_map. rewrite Forall_forall. split.
  - intros H c A. apply in_listed in A. specialize (H c A). unfold acts in H. apply Forall_app in H. apply H.
  - intros H c A. apply in_listed in A. unfold acts. apply Forall_app. split; [apply H; exact A|]. repeat constructor.
Qed.
Lemma passes_needs c : Forall passes (needs c) <-> usable st x u weights_ok reference_ok torques_ok c.
Proof.
  assert (F1 : forall (a : action term) l, Forall passes (a :: l) <-> passes a /\ Forall passes l).
  { intros a l. split; [intros H; inversion H; auto|intros [A B]; constructor; auto]. }
  assert (F0 : Forall (@passes term) [] <-> True) by (split; auto).
  assert (P : forall o, present o = true <-> o <> None) by (intros [o|]; cbn; split; congruence).
  destruct c; try destruct s; cbn [needs usable]; rewrite ?F1, ?F0; cbn [passes]; rewrite ?P, ?Nat.ltb_lt; tauto.
Qed.
End Costs.

(** * The constraints *)
Section Constraints.
Variable st : problem_settings.
Notation program := (setConstraints st).

Definition given_parameters (c : limit) : list datum :=
  match c with
  | LFeetLateralDistance => [Index (lateralIndex st); Frame (distanceRefFrame st); Frame (distanceOtherFrame st); Number (kept_distance st)]
  | _ => own_parameters st c
  end.
Definition given_limit (c : limit) : restriction := mkRestriction c (given_parameters c).
Definition of_point (s : side) (i : nat) : list limit :=
  when (is_planar st HyperbolicTangentInequality) [LPlanarVelocity s i] ++ when (is_planar st PlanarClassical) [LClassicalPlanar s i] ++
  when (is_compl st Dynamical) [LDynamicalComplementarity s i] ++ when (is_compl st HyperbolicSecantInequality) [LForceControl s i] ++
  when (is_compl st Classical) [LClassicalComplementarity s i] ++ [LFriction s i; LPointPosition s i].
Definition whole_body : list limit := [LCentroidalMomentum; LCoMPosition; LFeetLateralDistance; LQuaternionNorm; LFeetRelativeHeight].
Definition point_list : list (side * nat) := map (pair Left) (seq 0 (length (leftPts st))) ++ map (pair Right) (seq 0 (length (rightPts st))).
Definition limits : list limit := whole_body ++ flat_map (fun p => of_point (fst p) (snd p)) point_list.

Lemma left_additions i : additions (left_point st i) = map given_limit (of_point Left i).
Proof. unfold left_point, of_point, is_planar, is_compl. destruct (planar st), (compl st); reflexivity. Qed.
Lemma right_additions i : additions (right_point st i) = map given_limit (of_point Right i).
Proof. unfold right_point, of_point, is_planar, is_compl. destruct (planar st), (compl st); reflexivity. Qed.
Lemma flat_of_map {A B C} (g : A -> B) (f : B -> list C) l : flat_map f (map g l) = flat_map (fun a => f (g a)) l.
Proof. induction l as [|a l IH]; cbn; [reflexivity|]. rewrite IH. reflexivity. Qed.
Lemma map_flat {A B C} (g : B -> C) (f : A -> list B) l : map g (flat_map f l) = flat_map (fun a => map g (f a)) l.
Proof. induction l as [|a l IH]; cbn; [reflexivity|]. rewrite map_app, IH. reflexivity. Qed.
Lemma additions_constraints : additions program = map given_limit limits.
Proof.
  unfold setConstraints, limits. rewrite map_app, additions_app. f_equal.
  unfold for_points, point_list. rewrite additions_app, !additions_flat, flat_map_app, map_app, !flat_of_map, !map_flat. f_equal.
  - apply flat_map_ext. apply left_additions.
  - apply flat_map_ext. apply right_additions.
Qed.
Lemma in_point_list s i : In (s, i) point_list <-> (i < length (pts st s))%nat.
Proof.
  unfold point_list. rewrite in_app_iff, !in_map_iff. setoid_rewrite in_seq. split.
  - intros [(j & E & H)|(j & E & H)]; injection E as <- <-; cbn [pts]; lia.
  - intros H. destruct s; cbn [pts] in H; [left|right]; exists i; split; auto; lia.
Qed.
Lemma point_list_NoDup : NoDup point_list.
Proof.
  unfold point_list. apply NoDup_app_intro.
  - apply NoDup_map_inj; [|apply seq_NoDup]. congruence.
  - apply NoDup_map_inj; [|apply seq_NoDup]. congruence.
  - intros c A B. apply in_map_iff in A. apply in_map_iff in B. destruct A as (i & A & _), B as (j & B & _). congruence.
Qed.
Definition owner (c : limit) : option (side * nat) :=
  match c with
  | LPlanarVelocity s i | LClassicalPlanar s i | LNormalVelocity s i | LDynamicalComplementarity s i | LForceControl s i
  | LClassicalComplementarity s i | LFriction s i | LPointPosition s i => Some (s, i)
  | _ => None
  end.
Lemma of_point_owner s i c : In c (of_point s i) -> owner c = Some (s, i).
Proof.
  unfold of_point, is_planar, is_compl. destruct (planar st), (compl st); cbn; intros H;
    repeat match goal with H : _ \/ _ |- _ => destruct H as [<-|H]; [reflexivity|] end; destruct H.
Qed.
Lemma of_point_NoDup s i : NoDup (of_point s i).
Proof.
  unfold of_point, is_planar, is_compl. destruct (planar st), (compl st); cbn;
    repeat constructor; cbn; intuition discriminate.
Qed.
Lemma NoDup_flat {A B} (f : A -> list B) l : NoDup l -> (forall a, NoDup (f a)) -> (forall a b y, In y (f a) -> In y (f b) -> a = b) -> NoDup (flat_map f l).
Proof.
  intros N F D. induction N as [|a l I N IH]; cbn [flat_map]; [constructor|]. apply NoDup_app_intro; auto.
  intros y H K. apply in_flat_map in K. destruct K as (b & K & L). rewrite (D a b y H L) in I. exact (I K).
Qed.
Lemma limits_NoDup : NoDup limits.
Proof.
  unfold limits. apply NoDup_app_intro.
  - unfold whole_body. repeat constructor; cbn; intuition discriminate.
  - apply NoDup_flat; [apply point_list_NoDup|intros; apply of_point_NoDup|].
    intros [s i] [s' i'] y A B. apply of_point_owner in A. apply of_point_owner in B. cbn [fst snd] in *. congruence.
  - intros c A B. apply in_flat_map in B. destruct B as ([s i] & _ & B). apply of_point_owner in B.
    cbn in A. repeat match goal with H : _ \/ _ |- _ => destruct H as [<-|H]; [discriminate B|] end. destruct A.
Qed.
Lemma in_of_point s i c : In c (of_point s i) <-> owner c = Some (s, i) /\
  match c with
  | LPlanarVelocity _ _ => planar st = HyperbolicTangentInequality | LClassicalPlanar _ _ => planar st = PlanarClassical
  | LDynamicalComplementarity _ _ => compl st = Dynamical | LForceControl _ _ => compl st = HyperbolicSecantInequality
  | LClassicalComplementarity _ _ => compl st = Classical
  | LFriction _ _ | LPointPosition _ _ => True
  | _ => False
  end.
Proof.
  split.
  - intros H. split; [apply of_point_owner; exact H|]. revert H. unfold of_point, is_planar, is_compl.
    destruct (planar st), (compl st); cbn; intros H;
      repeat match goal with H : _ \/ _ |- _ => destruct H as [<-|H]; [auto|] end; destruct H.
  - intros [O H]. unfold of_point, is_planar, is_compl. destruct c; try discriminate O; try contradiction; injection O as -> ->;
      destruct (planar st), (compl st); try discriminate H; cbn; tauto.
Qed.
Lemma in_limits c : In c limits <-> imposed st c.
Proof.
  unfold limits. rewrite in_app_iff, in_flat_map. split.
  - intros [H|([s i] & P & H)].
    + cbn in H. repeat match goal with H : _ \/ _ |- _ => destruct H as [<-|H]; [exact Logic.I|] end. destruct H.
    + apply in_point_list in P. apply in_of_point in H. cbn [fst snd] in H. destruct H as [O H].
      destruct c; try discriminate O; try contradiction; injection O as -> ->; cbn [imposed]; auto.
  - destruct c; cbn [imposed]; intros H; try (left; cbn; tauto); try contradiction; right; exists (s, i); (split; [apply in_point_list; tauto|apply in_of_point; cbn [fst snd owner]; tauto]).
Qed.
Lemma passes_constraints : Forall passes program <-> (friction_ok st = true \/ (leftPts st = [] /\ rightPts st = [])).
Proof.
  assert (L : forall i, Forall passes (left_point st i) <-> friction_ok st = true).
  { intros i. unfold left_point, is_planar, is_compl. destruct (planar st), (compl st); cbn; split; intros H;
      try (repeat constructor; exact H); repeat match goal with H : Forall _ (_ :: _) |- _ => inversion H; clear H; subst end; assumption. }
  assert (R : forall i, Forall passes (right_point st i) <-> friction_ok st = true).
  { intros i. unfold right_point, is_planar, is_compl. destruct (planar st), (compl st); cbn; split; intros H;
      try (repeat constructor; exact H); repeat match goal with H : Forall _ (_ :: _) |- _ => inversion H; clear H; subst end; assumption. }
  unfold setConstraints. rewrite !Forall_app, !Forall_for. split.
  - intros (_ & A & B). destruct (leftPts st) as [|p ps] eqn:E.
    + destruct (rightPts st) as [|q qs] eqn:E'; [right; auto|]. left. apply (R 0%nat). apply B. cbn. lia.
    + left. apply (L 0%nat). apply A. cbn. lia.
  - intros H. split; [repeat constructor|]. destruct H as [H|[-> ->]].
    + split; intros i _; [apply L|apply R]; exact H.
    + split; intros i Hi; inversion Hi.
Qed.
End Constraints.
