(** C42: the translating guess; C54: the exponential weight. *)
From Coq Require Import Reals List Arith Bool Lra Lia.
From Verif Require Import SpecState SpecGeometry GuessModel.
Import ListNotations.
Local Open Scope R_scope.

(** A history of queries. *)
Fixpoint queries {Rot} (ref : R -> V3 * bool) (g : guess Rot) (ts : list R) : option (guess Rot) :=
  match ts with
  | [] => Some g
  | t :: r => match guess_get ref g t with None => None | Some (g', _) => queries ref g' r end
  end.

(** [r] is the initial state moved as a whole so that the CoM is at [c]. *)
Definition rigidly_moved {Rot} (s r : state Rot) (c : V3) (t : R) : Prop :=
  comPosition r = c /\
  map (fun p => sub3 (pointPosition p) (comPosition r)) (leftContactPointsState r) =
    map (fun p => sub3 (pointPosition p) (comPosition s)) (leftContactPointsState s) /\
  map (fun p => sub3 (pointPosition p) (comPosition r)) (rightContactPointsState r) =
    map (fun p => sub3 (pointPosition p) (comPosition s)) (rightContactPointsState s) /\
  sub3 (basePosition r) (comPosition r) = sub3 (basePosition s) (comPosition s) /\
  map pointForce (leftContactPointsState r) = map pointForce (leftContactPointsState s) /\
  map pointForce (rightContactPointsState r) = map pointForce (rightContactPointsState s) /\
  baseRotation r = baseRotation s /\ jointsConfiguration r = jointsConfiguration s /\
  momentumInCoM r = (zero3, zero3) /\ stateTime r = t.

Lemma move_spec d : forall cur ini, map pointForce cur = map pointForce ini ->
  exists l, move_points d cur ini = Some l /\ map pointForce l = map pointForce ini /\
    map pointPosition l = map (fun p => add3 (pointPosition p) d) ini.
Proof.
  induction cur as [|c cur IH]; intros [|i ini] H; try discriminate.
  - exists []. auto.
  - cbn in H. injection H as H1 H2. destruct (IH ini H2) as (l & E & A & B). cbn [move_points]. rewrite E.
    eexists. split; [reflexivity|]. cbn. rewrite A, B, H1. auto.
Qed.

Lemma get_spec Rot ref (g : guess Rot) t :
  map pointForce (leftContactPointsState (g_state g)) = map pointForce (leftContactPointsState (g_initial g)) ->
  map pointForce (rightContactPointsState (g_state g)) = map pointForce (rightContactPointsState (g_initial g)) ->
  exists g', guess_get ref g t = Some (g', true) /\ g_initial g' = g_initial g /\
    rigidly_moved (g_initial g) (g_state g') (fst (ref t)) t.
Proof.
  intros H1 H2. unfold guess_get.
  destruct (move_spec (sub3 (fst (ref t)) (comPosition (g_initial g))) _ _ H1) as (l & -> & A1 & B1).
  destruct (move_spec (sub3 (fst (ref t)) (comPosition (g_initial g))) _ _ H2) as (r & -> & A2 & B2).
  eexists. split; [reflexivity|]. cbn [g_initial g_state]. split; auto.
  assert (E : forall (a c d : V3), sub3 (add3 a (sub3 c d)) c = sub3 a d).
  { intros [[? ?] ?] [[? ?] ?] [[? ?] ?]. cbn. repeat (f_equal; try ring). }
  unfold rigidly_moved.
  cbn [comPosition leftContactPointsState rightContactPointsState basePosition baseRotation jointsConfiguration momentumInCoM stateTime].
  assert (Q : forall (x ini : list point_state), map pointPosition x = map (fun p => add3 (pointPosition p) (sub3 (fst (ref t)) (comPosition (g_initial g)))) ini ->
     map (fun p => sub3 (pointPosition p) (fst (ref t))) x = map (fun p => sub3 (pointPosition p) (comPosition (g_initial g))) ini).
  { intros x ini Hx. rewrite <- (map_map pointPosition (fun q => sub3 q (fst (ref t)))), Hx, map_map. apply map_ext. intros p. apply E. }
  repeat split; auto.
Qed.

(** Whatever was asked before. *)
Theorem C42_rigid_and_history_free : forall Rot ref (s : state Rot) ts t,
  exists g g', queries ref (newGuess s) ts = Some g /\ guess_get ref g t = Some (g', true) /\
    rigidly_moved s (g_state g') (fst (ref t)) t.
Proof.
  intros Rot ref s ts t.
  assert (H : forall ts g, g_initial g = s ->
    map pointForce (leftContactPointsState (g_state g)) = map pointForce (leftContactPointsState s) ->
    map pointForce (rightContactPointsState (g_state g)) = map pointForce (rightContactPointsState s) ->
    exists g', queries ref g ts = Some g' /\ g_initial g' = s /\
      map pointForce (leftContactPointsState (g_state g')) = map pointForce (leftContactPointsState s) /\
      map pointForce (rightContactPointsState (g_state g')) = map pointForce (rightContactPointsState s)).
  { clear. induction ts as [|t ts IH]; intros g Hi H1 H2; [exists g; auto|]. subst s. cbn [queries].
    destruct (get_spec Rot ref g t H1 H2) as (g' & E & Hi & Hr). rewrite E.
    destruct Hr as (_ & _ & _ & _ & F1 & F2 & _). apply (IH g' Hi); auto. }
  destruct (H ts (newGuess s) eq_refl eq_refl eq_refl) as (g & E & Hi & H1 & H2). subst s.
  destruct (get_spec Rot ref g t H1 H2) as (g' & E' & _ & Hr). exists g, g'. auto.
Qed.
(** Two histories give the same answer. *)
Theorem C42_same_answer : forall Rot ref (s : state Rot) ts1 ts2 t g1 g2 a1 a2,
  queries ref (newGuess s) ts1 = Some g1 -> queries ref (newGuess s) ts2 = Some g2 ->
  guess_get ref g1 t = Some a1 -> guess_get ref g2 t = Some a2 -> a1 = a2.
Proof.
  intros Rot ref s ts1 ts2 t g1 g2 a1 a2 Q1 Q2 E1 E2.
  assert (K : forall ts g, queries ref (newGuess s) ts = Some g -> g_initial g = s /\
    map pointForce (leftContactPointsState (g_state g)) = map pointForce (leftContactPointsState s) /\
    map pointForce (rightContactPointsState (g_state g)) = map pointForce (rightContactPointsState s)).
  { clear. intros ts. assert (G : forall ts g g', queries ref g ts = Some g' -> g_initial g = s ->
      map pointForce (leftContactPointsState (g_state g)) = map pointForce (leftContactPointsState s) ->
      map pointForce (rightContactPointsState (g_state g)) = map pointForce (rightContactPointsState s) ->
      g_initial g' = s /\
      map pointForce (leftContactPointsState (g_state g')) = map pointForce (leftContactPointsState s) /\
      map pointForce (rightContactPointsState (g_state g')) = map pointForce (rightContactPointsState s)).
    { clear. induction ts as [|t ts IH]; intros g g' E Hi H1 H2; cbn [queries] in E; [injection E as <-; auto|].
      subst s. destruct (get_spec Rot ref g t H1 H2) as (g1 & E1 & Hi & Hr). rewrite E1 in E.
      destruct Hr as (_ & _ & _ & _ & F1 & F2 & _). apply (IH g1 g' E Hi); auto. }
    intros g E. apply (G ts (newGuess s) g E); reflexivity. }
  destruct (K _ _ Q1) as (I1 & L1 & R1), (K _ _ Q2) as (I2 & L2 & R2).
  assert (M : forall d x y ini, map pointForce x = map pointForce y -> move_points d x ini = move_points d y ini).
  { clear. intros d. induction x as [|a x IH]; intros [|b y] [|i ini] H; try discriminate; auto.
    cbn in H. injection H as Ha Hx. cbn. rewrite Ha, (IH y ini Hx). reflexivity. }
  unfold guess_get in E1, E2. rewrite I1 in E1. rewrite I2 in E2.
  rewrite (M _ _ (leftContactPointsState (g_state g2))) in E1 by congruence.
  rewrite (M _ (rightContactPointsState (g_state g1)) (rightContactPointsState (g_state g2))) in E1 by congruence.
  congruence.
Qed.
(** Refuted: an invalid reference is reported as a valid guess. *)
Theorem C42_invalid_reference_refuted : forall Rot (s : state Rot) (ref : R -> V3 * bool) t,
  snd (ref t) = false -> exists g', guess_get ref (newGuess s) t = Some (g', true).
Proof. intros Rot s ref t _. destruct (get_spec Rot ref (newGuess s) t eq_refl eq_refl) as (g' & E & _). eauto. Qed.
(** Refuted: the returned reference is not constant, and forces written by the
    caller appear in every later guess. *)
Theorem C42_caller_writes_refuted : exists (s w : state unit) ref t g',
  guess_get ref (caller_writes (newGuess s) w) t = Some (g', true) /\
  ~ rigidly_moved s (g_state g') (fst (ref t)) t.
Proof.
  set (mk := fun f => mkState (Rot := unit) [mkPointState f zero3] [] (zero3, zero3) zero3 zero3 tt [] 0).
  exists (mk zero3), (mk (0, 0, 1)), (fun _ => (zero3, true)), 0. eexists. split; [reflexivity|].
  intros (_ & _ & _ & _ & H & _). cbn in H. unfold zero3 in H. injection H. lra.
Qed.
Example C42_example : exists g', guess_get (Rot := unit) (fun t => ((t, 0, 1), true))
   (newGuess (mkState [mkPointState (0,0,5) (1,2,3)] [] (zero3, zero3) (1,1,1) zero3 tt [] 0)) 4 = Some (g', true) /\
   map pointPosition (leftContactPointsState (g_state g')) = [(4, 1, 3)].
Proof. eexists. split; [reflexivity|]. cbn. repeat (f_equal; try ring). Qed.
Print Assumptions C42_rigid_and_history_free.
Print Assumptions C42_same_answer.
Print Assumptions C42_invalid_reference_refuted.
Print Assumptions C42_caller_writes_refuted.

(** C54: a exp(b (t - d)) + c: always valid, premultiplier at the time offset,
    monotone with the sign of a b, never below the offset for a >= 0, and it
    grows (or decays) by the constant factor exp(b h) every h. *)
Theorem C54_exponential_weight : forall a b c d t t' h,
  let w := fun t => fst (exponentialWeight a b c d t) in
  snd (exponentialWeight a b c d t) = true /\
  w d = a + c /\
  (0 <= a * b -> t <= t' -> w t <= w t') /\ (a * b <= 0 -> t <= t' -> w t' <= w t) /\
  (0 <= a -> c <= w t) /\ (a <= 0 -> w t <= c) /\
  w (t + h) - c = exp (b * h) * (w t - c).
Proof.
  intros a b c d t t' h w. unfold w, exponentialWeight. cbn [fst snd].
  assert (P : forall x, 0 < exp x) by apply exp_pos.
  assert (M : forall x y, x <= y -> exp x <= exp y).
  { intros x y [H| ->]; [left; apply exp_increasing; auto | lra]. }
  split; [reflexivity|]. split; [replace (b * (d - d)) with 0 by ring; rewrite exp_0; ring|].
  assert (S : t <= t' -> (0 <= b -> exp (b * (t - d)) <= exp (b * (t' - d))) /\ (b <= 0 -> exp (b * (t' - d)) <= exp (b * (t - d)))).
  { intros Ht. split; intros Hb; apply M; nra. }
  repeat split.
  - intros Hab Ht. destruct (S Ht) as (S1 & S2). destruct (Rtotal_order b 0) as [Hb|[->|Hb]].
    + assert (a <= 0) by nra. specialize (S2 ltac:(lra)). nra.
    + rewrite !Rmult_0_l. lra.
    + assert (0 <= a) by nra. specialize (S1 ltac:(lra)). nra.
  - intros Hab Ht. destruct (S Ht) as (S1 & S2). destruct (Rtotal_order b 0) as [Hb|[->|Hb]].
    + assert (0 <= a) by nra. specialize (S2 ltac:(lra)). nra.
    + rewrite !Rmult_0_l. lra.
    + assert (a <= 0) by nra. specialize (S1 ltac:(lra)). nra.
  - intros Ha. specialize (P (b * (t - d))). nra.
  - intros Ha. specialize (P (b * (t - d))). nra.
  - replace (b * (t + h - d)) with (b * h + b * (t - d)) by ring. rewrite exp_plus. ring.
Qed.
Print Assumptions C54_exponential_weight.
