(** C46, C47: state and control containers, foot queries. *)
From Coq Require Import Reals List Arith Bool Lra Lia.
From Verif Require Import SpecState SpecGeometry SpecReference SpecContainers StateModel.
Import ListNotations.
Local Open Scope R_scope.

Lemma resized_length : forall A n (d : A) l, length (resized n d l) = n.
Proof. intros; unfold resized; rewrite app_length, firstn_length, repeat_length; lia. Qed.
Lemma resized_keeps : forall A n (d : A) l i, (i < n)%nat -> (i < length l)%nat -> nth_error (resized n d l) i = nth_error l i.
Proof.
  intros A n d l i H1 H2; unfold resized. rewrite nth_error_app1 by (rewrite firstn_length; lia).
  revert l i H1 H2; induction n as [|n IH]; intros [|x l] [|i] H1 H2; cbn [firstn nth_error length] in *; try lia; try reflexivity.
  apply IH; lia.
Qed.

(** ** C46 *)
Section C46.
Variable Rot : Type.
Variable idR : Rot.
Variable freshPoint : point_state.
Variable freshControl : point_control.
Variable resizeV : nat -> list R -> list R.
Hypothesis resizeV_size : forall n l, length (resizeV n l) = n.

Lemma checkSize_iff : forall (s : state Rot) d n, state_checkSize Rot s d n = true <-> state_sized s d n.
Proof. intros; unfold state_checkSize, state_sized; rewrite !andb_true_iff, !Nat.eqb_eq; tauto. Qed.
Lemma control_checkSize_iff : forall c d n, control_checkSize c d n = true <-> control_sized c d n.
Proof. intros; unfold control_checkSize, control_sized; rewrite !andb_true_iff, !Nat.eqb_eq; tauto. Qed.
Lemma sameSize_iff : forall s o : state Rot, state_sameSize Rot s o = true <->
  length (leftContactPointsState s) = length (leftContactPointsState o) /\
  length (rightContactPointsState s) = length (rightContactPointsState o) /\
  length (jointsConfiguration s) = length (jointsConfiguration o).
Proof. intros; unfold state_sameSize; rewrite !andb_true_iff, !Nat.eqb_eq; tauto. Qed.
Lemma control_sameSize_iff : forall s o : control, control_sameSize s o = true <->
  length (leftContactPointsControl s) = length (leftContactPointsControl o) /\
  length (rightContactPointsControl s) = length (rightContactPointsControl o) /\
  length (jointsVelocity s) = length (jointsVelocity o).
Proof. intros; unfold control_sameSize; rewrite !andb_true_iff, !Nat.eqb_eq; tauto. Qed.

(** Resizing gives the requested size whatever the size before, keeps the values of the
    points that survive and everything that is not sized. *)
Theorem C46_state_resize : forall d n s, let s' := state_resize Rot freshPoint resizeV d n s in
  state_checkSize Rot s' d n = true /\ state_sized s' d n /\
  (forall i, (i < n)%nat -> (i < length (leftContactPointsState s))%nat ->
     nth_error (leftContactPointsState s') i = nth_error (leftContactPointsState s) i) /\
  (forall i, (i < n)%nat -> (i < length (rightContactPointsState s))%nat ->
     nth_error (rightContactPointsState s') i = nth_error (rightContactPointsState s) i) /\
  momentumInCoM s' = momentumInCoM s /\ comPosition s' = comPosition s /\ basePosition s' = basePosition s /\
  baseRotation s' = baseRotation s /\ stateTime s' = stateTime s.
Proof.
  intros d n s; cbv zeta.
  assert (S : state_sized (state_resize Rot freshPoint resizeV d n s) d n).
  { unfold state_sized; cbn [state_resize leftContactPointsState rightContactPointsState jointsConfiguration].
    rewrite !resized_length, resizeV_size; auto. }
  split; [now apply checkSize_iff|]. split; [exact S|].
  cbn [state_resize leftContactPointsState rightContactPointsState momentumInCoM comPosition basePosition baseRotation stateTime].
  repeat split; intros; now apply resized_keeps.
Qed.
Theorem C46_control_resize : forall d n c, let c' := control_resize freshControl resizeV d n c in
  control_checkSize c' d n = true /\ control_sized c' d n /\
  (forall i, (i < n)%nat -> (i < length (leftContactPointsControl c))%nat ->
     nth_error (leftContactPointsControl c') i = nth_error (leftContactPointsControl c) i) /\
  (forall i, (i < n)%nat -> (i < length (rightContactPointsControl c))%nat ->
     nth_error (rightContactPointsControl c') i = nth_error (rightContactPointsControl c) i) /\
  baseLinearVelocity c' = baseLinearVelocity c /\ baseQuaternionDerivative c' = baseQuaternionDerivative c /\ controlTime c' = controlTime c.
Proof.
  intros d n c; cbv zeta.
  assert (S : control_sized (control_resize freshControl resizeV d n c) d n).
  { unfold control_sized; cbn [control_resize leftContactPointsControl rightContactPointsControl jointsVelocity].
    rewrite !resized_length, resizeV_size; auto. }
  split; [now apply control_checkSize_iff|]. split; [exact S|].
  cbn [control_resize leftContactPointsControl rightContactPointsControl baseLinearVelocity baseQuaternionDerivative controlTime].
  repeat split; intros; now apply resized_keeps.
Qed.
(** checkSize says yes exactly for the sizes of the object. *)
Theorem C46_checkSize_exact : forall (s : state Rot) c d n,
  (state_checkSize Rot s d n = true <-> state_sized s d n) /\ (control_checkSize c d n = true <-> control_sized c d n).
Proof. intros; split; [apply checkSize_iff | apply control_checkSize_iff]. Qed.
(** sameSize is an equivalence relation, compatible with checkSize. *)
Theorem C46_state_sameSize_equivalence :
  (forall s, state_sameSize Rot s s = true) /\
  (forall s o, state_sameSize Rot s o = true -> state_sameSize Rot o s = true) /\
  (forall s o p, state_sameSize Rot s o = true -> state_sameSize Rot o p = true -> state_sameSize Rot s p = true) /\
  (forall s o d n, state_sameSize Rot s o = true -> state_checkSize Rot s d n = state_checkSize Rot o d n).
Proof.
  split; [|split; [|split]]; intros.
  - apply sameSize_iff; auto.
  - apply sameSize_iff in H; apply sameSize_iff; intuition.
  - apply sameSize_iff in H; apply sameSize_iff in H0; apply sameSize_iff; intuition congruence.
  - apply sameSize_iff in H; destruct H as (A & B & C); unfold state_checkSize; rewrite A, B, C; reflexivity.
Qed.
Theorem C46_control_sameSize_equivalence :
  (forall s, control_sameSize s s = true) /\
  (forall s o, control_sameSize s o = true -> control_sameSize o s = true) /\
  (forall s o p, control_sameSize s o = true -> control_sameSize o p = true -> control_sameSize s p = true) /\
  (forall s o d n, control_sameSize s o = true -> control_checkSize s d n = control_checkSize o d n).
Proof.
  split; [|split; [|split]]; intros.
  - apply control_sameSize_iff; auto.
  - apply control_sameSize_iff in H; apply control_sameSize_iff; intuition.
  - apply control_sameSize_iff in H; apply control_sameSize_iff in H0; apply control_sameSize_iff; intuition congruence.
  - apply control_sameSize_iff in H; destruct H as (A & B & C); unfold control_checkSize; rewrite A, B, C; reflexivity.
Qed.
(** zero keeps the sizes and zeroes every value. *)
Theorem C46_state_zero : forall s, let z := state_zeroed Rot idR s in
  state_zero idR z /\ state_sameSize Rot s z = true.
Proof.
  intros s; cbv zeta; split.
  - unfold state_zero; cbn [state_zeroed leftContactPointsState rightContactPointsState momentumInCoM comPosition basePosition baseRotation jointsConfiguration stateTime].
    repeat split; try (destruct H as [H|H]; apply in_map_iff in H as (q & E & _); subst; reflexivity).
    intros x H; apply in_map_iff in H as (q & E & _); auto.
  - apply sameSize_iff; cbn [state_zeroed leftContactPointsState rightContactPointsState jointsConfiguration]; unfold zero_all; rewrite !map_length; auto.
Qed.
Theorem C46_control_zero : forall c, let z := control_zeroed c in control_zero z /\ control_sameSize c z = true.
Proof.
  intros s; cbv zeta; split.
  - unfold control_zero; cbn [control_zeroed leftContactPointsControl rightContactPointsControl baseLinearVelocity baseQuaternionDerivative jointsVelocity controlTime].
    repeat split; try (destruct H as [H|H]; apply in_map_iff in H as (q & E & _); subst; reflexivity).
    intros x H; apply in_map_iff in H as (q & E & _); auto.
  - apply control_sameSize_iff; cbn [control_zeroed leftContactPointsControl rightContactPointsControl jointsVelocity]; unfold zero_all; rewrite !map_length; auto.
Qed.
(** A freshly built object is zero and has the requested size. *)
Theorem C46_constructors : forall gs gc d n,
  (state_zero idR (state_new Rot idR freshPoint resizeV gs d n) /\ state_sized (state_new Rot idR freshPoint resizeV gs d n) d n) /\
  (control_zero (control_new freshControl resizeV gc d n) /\ control_sized (control_new freshControl resizeV gc d n) d n).
Proof.
  intros gs gc d n. unfold state_new, control_new.
  destruct (C46_state_zero (state_resize Rot freshPoint resizeV d n gs)) as [Z S].
  destruct (C46_control_zero (control_resize freshControl resizeV d n gc)) as [Zc Sc].
  split; (split; [assumption|]).
  - apply checkSize_iff. rewrite <- (proj2 (proj2 (proj2 C46_state_sameSize_equivalence)) _ _ d n S). apply C46_state_resize.
  - apply control_checkSize_iff. rewrite <- (proj2 (proj2 (proj2 C46_control_sameSize_equivalence)) _ _ d n Sc). apply C46_control_resize.
Qed.
End C46.
(** The size hypothesis on the external resize is met, e.g. by padding with zeros. *)
Example C46_nonvacuous : forall n (l : list R), length (resized n 0 l) = n.
Proof. intros; apply resized_length. Qed.

(** ** C47 *)
Lemma scale3_add : forall c a b, scale3 c (add3 a b) = add3 (scale3 c a) (scale3 c b).
Proof. intros c [[a1 a2] a3] [[b1 b2] b3]; unfold scale3, add3; f_equal; [f_equal|]; ring. Qed.
Lemma add3_assoc : forall a b c, add3 a (add3 b c) = add3 (add3 a b) c.
Proof. intros [[a1 a2] a3] [[b1 b2] b3] [[c1 c2] c3]; unfold add3; f_equal; [f_equal|]; ring. Qed.
Lemma add3_0_r : forall a, add3 a zero3 = a.
Proof. intros [[a1 a2] a3]; unfold add3, zero3; f_equal; [f_equal|]; ring. Qed.
Lemma add3_0_l : forall a, add3 zero3 a = a.
Proof. intros [[a1 a2] a3]; unfold add3, zero3; f_equal; [f_equal|]; ring. Qed.
Lemma scale3_inv : forall c a, c <> 0 -> scale3 c (scale3 (/ c) a) = a.
Proof. intros c [[a1 a2] a3] H; unfold scale3; f_equal; [f_equal|]; field; assumption. Qed.
Lemma accumulate_sum : forall l acc, accumulate acc l = add3 acc (sum3 (map pointPosition l)).
Proof.
  induction l as [|p l IH]; intros acc; unfold accumulate in *; cbn [fold_left map sum3 fold_right].
  - now rewrite add3_0_r.
  - rewrite IH. unfold sum3; cbn [fold_right]. now rewrite <- add3_assoc.
Qed.
Lemma sum3_app : forall a b, sum3 (a ++ b) = add3 (sum3 a) (sum3 b).
Proof.
  induction a as [|x a IH]; intros b; cbn [app]; unfold sum3 in *; cbn [fold_right].
  - now rewrite add3_0_l.
  - now rewrite IH, add3_assoc.
Qed.

(** The centroid is the mean of all the points of both feet (and zero without points). *)
Theorem C47_centroid : forall Rot (s : state Rot),
  is_mean (computeFeetCentroid Rot s) (map pointPosition (leftContactPointsState s ++ rightContactPointsState s)) /\
  ((leftContactPointsState s = [] /\ rightContactPointsState s = []) -> computeFeetCentroid Rot s = zero3).
Proof.
  intros Rot s; unfold is_mean, computeFeetCentroid. rewrite map_length, app_length. split.
  - destruct (Nat.eqb (length (leftContactPointsState s) + length (rightContactPointsState s)) 0) eqn:E.
    + apply Nat.eqb_eq in E. rewrite E. destruct (leftContactPointsState s), (rightContactPointsState s); cbn [length] in E; try lia.
      cbn [app map]. unfold sum3; cbn [fold_right INR]. unfold scale3, zero3; f_equal; [f_equal|]; ring.
    + apply Nat.eqb_neq in E. rewrite scale3_inv by (apply not_0_INR; exact E).
      rewrite !accumulate_sum, add3_0_l, map_app, sum3_app. reflexivity.
  - intros [A B]; rewrite A, B; reflexivity.
Qed.
Lemma mean_unique : forall m1 m2 ps, ps <> [] -> is_mean m1 ps -> is_mean m2 ps -> m1 = m2.
Proof.
  intros m1 m2 ps H A B; unfold is_mean in *. rewrite <- B in A.
  assert (N : INR (length ps) <> 0) by (apply not_0_INR; destruct ps; [congruence | discriminate]).
  destruct m1 as [[a b] c], m2 as [[d e] f]; unfold scale3 in A; inversion A; f_equal; [f_equal|]; eapply Rmult_eq_reg_l; eassumption.
Qed.
Lemma foot_mean : forall l, l <> [] -> is_mean (scale3 (/ INR (length l)) (accumulate zero3 l)) (map pointPosition l).
Proof.
  intros l H; unfold is_mean. rewrite map_length, scale3_inv.
  - rewrite accumulate_sum; apply add3_0_l.
  - apply not_0_INR; destruct l; [congruence | discriminate].
Qed.
(** The left foot is forward exactly when its mean position is strictly ahead along the
    given direction; with an empty foot the answer is always no. *)
Theorem C47_left_is_forward : forall Rot (s : state Rot) d ml mr,
  leftContactPointsState s <> [] -> rightContactPointsState s <> [] ->
  is_mean ml (map pointPosition (leftContactPointsState s)) -> is_mean mr (map pointPosition (rightContactPointsState s)) ->
  (leftIsForward Rot d s = true <-> dot3 mr d < dot3 ml d).
Proof.
  intros Rot s d ml mr HL HR ML MR.
  assert (NL : map pointPosition (leftContactPointsState s) <> []) by (intros E; apply map_eq_nil in E; auto).
  assert (NR : map pointPosition (rightContactPointsState s) <> []) by (intros E; apply map_eq_nil in E; auto).
  rewrite (mean_unique _ _ _ NL ML (foot_mean _ HL)), (mean_unique _ _ _ NR MR (foot_mean _ HR)).
  unfold leftIsForward. destruct (leftContactPointsState s) as [|p l]; [congruence|]. destruct (rightContactPointsState s) as [|q r]; [congruence|].
  cbn [length Nat.eqb orb]. unfold gtb. match goal with |- (if Rlt_dec ?a ?b then _ else _) = _ <-> _ => destruct (Rlt_dec a b) end; split; intros; try reflexivity; try discriminate; lra.
Qed.
Theorem C47_empty_foot_not_forward : forall Rot (s : state Rot) d,
  leftContactPointsState s = [] \/ rightContactPointsState s = [] -> leftIsForward Rot d s = false.
Proof.
  intros Rot s d [H|H]; unfold leftIsForward; rewrite H; cbn [length Nat.eqb orb]; [|rewrite orb_true_r]; reflexivity.
Qed.
Lemma minForce_spec : forall l x, minForce l = Some x -> smallest_norm x (map pointForce l).
Proof.
  intros [|p r] x H; [discriminate|]. cbn [minForce] in H. inversion H as [E]; clear H.
  assert (G : forall r m l0, smallest_norm m l0 ->
     smallest_norm (fold_left (fun m q => if Rlt_dec (norm3 (pointForce q)) m then norm3 (pointForce q) else m) r m) (l0 ++ map pointForce r)).
  { clear; induction r as [|q r IH]; intros m l0 S; cbn [fold_left map].
    - now rewrite app_nil_r.
    - replace (l0 ++ pointForce q :: map pointForce r) with ((l0 ++ [pointForce q]) ++ map pointForce r) by now rewrite <- app_assoc.
      apply IH. destruct S as [[f [If Ef]] S2]. destruct (Rlt_dec (norm3 (pointForce q)) m).
      + split; [exists (pointForce q); split; [apply in_or_app; right; now left | reflexivity]|].
        intros g Hg; apply in_app_or in Hg as [Hg|[Hg|[]]]; [specialize (S2 g Hg); lra | subst; lra].
      + split; [exists f; split; [apply in_or_app; now left | assumption]|].
        intros g Hg; apply in_app_or in Hg as [Hg|[Hg|[]]]; [exact (S2 g Hg) | subst; lra]. }
  apply (G r (norm3 (pointForce p)) [pointForce p]).
  split; [exists (pointForce p); split; [now left | reflexivity]|]. intros f [Hf|[]]; subst; lra.
Qed.
(** The minimum force is the smallest norm over the points of the forward foot. *)
Theorem C47_minimum_force : forall Rot (s : state Rot) d x, minimumPointForceOnForwardFoot Rot d s = Some x ->
  smallest_norm x (map pointForce (if leftIsForward Rot d s then leftContactPointsState s else rightContactPointsState s)).
Proof. intros Rot s d x H; unfold minimumPointForceOnForwardFoot in H; destruct (leftIsForward Rot d s); now apply minForce_spec. Qed.
(** It is defined exactly when the right foot has points: with no point on the right foot
    the code dereferences the begin() of an empty vector. *)
Theorem C47_minimum_force_defined_iff : forall Rot (s : state Rot) d,
  minimumPointForceOnForwardFoot Rot d s = None <-> rightContactPointsState s = [].
Proof.
  intros Rot s d; unfold minimumPointForceOnForwardFoot, leftIsForward.
  destruct (leftContactPointsState s) as [|p l], (rightContactPointsState s) as [|q r]; cbn [length Nat.eqb orb minForce]; split; intros H; try reflexivity; try discriminate;
    try (match goal with H : (if ?b then _ else _) = None |- _ => destruct b end; discriminate).
Qed.
Example C47_nonvacuous : exists s : state unit,
  leftIsForward unit (1,0,0) s = true /\ minimumPointForceOnForwardFoot unit (1,0,0) s = Some 2.
Proof.
  exists {| leftContactPointsState := [mkPointState (3,0,0) (2,0,0); mkPointState (0,2,0) (1,0,0)];
            rightContactPointsState := [mkPointState (1,0,0) (0,0,0)];
            momentumInCoM := (zero3, zero3); comPosition := zero3; basePosition := zero3; baseRotation := tt; jointsConfiguration := []; stateTime := 0 |}.
  assert (N3 : norm3 (3,0,0) = 3).
  { unfold norm3, dot3. replace (3*3+0*0+0*0) with (3*3) by ring. apply sqrt_square; lra. }
  assert (N2 : norm3 (0,2,0) = 2).
  { unfold norm3, dot3. replace (0*0+2*2+0*0) with (2*2) by ring. apply sqrt_square; lra. }
  match goal with |- leftIsForward unit _ ?s = _ /\ _ => assert (L : leftIsForward unit (1,0,0) s = true) end.
  { unfold leftIsForward; cbn [leftContactPointsState rightContactPointsState length Nat.eqb orb].
    unfold gtb. destruct (Rlt_dec _ _) as [|n]; [reflexivity|exfalso; apply n].
    unfold accumulate, zero3, add3, scale3, dot3; cbn [fold_left pointPosition INR]; lra. }
  split; [exact L|]. unfold minimumPointForceOnForwardFoot; rewrite L.
  cbn [leftContactPointsState minForce fold_left pointForce]. rewrite N3, N2. destruct (Rlt_dec 2 3); [reflexivity | lra].
Qed.

Print Assumptions C46_constructors.
Print Assumptions C46_state_sameSize_equivalence.
Print Assumptions C47_centroid.
Print Assumptions C47_left_is_forward.
Print Assumptions C47_minimum_force.
Print Assumptions C47_minimum_force_defined_iff.
