(** C41: the default initial state. *)
From Coq Require Import Reals List Arith Bool Lra Lia.
From Verif Require Import Spec SpecState SpecGeometry SpecUtilities RectFoot RectFootProofs PropRectFoot FillModel FillProofs.
Import ListNotations.
Local Open Scope R_scope.

(** Weight of the robot. *)
Definition weight (k : fk) : R := gravity_acceleration * fold_right Rplus 0 (linkMasses k).
Lemma fold_left_sum l a : fold_left Rplus l a = a + fold_right Rplus 0 l.
Proof. revert a. induction l as [|x l IH]; intros a; cbn; [ring|]. rewrite IH. ring. Qed.
Lemma normalForce_weight k : normalForce k = weight k.
Proof. unfold normalForce, totalMass, weight, gravity_acceleration. rewrite fold_left_sum. ring. Qed.
Lemma weight_nonneg k : (forall m, In m (linkMasses k) -> 0 <= m) -> 0 <= weight k.
Proof.
  intros H. unfold weight, gravity_acceleration. apply Rmult_le_pos; [lra|].
  induction (linkMasses k) as [|m l IH]; cbn; [lra|]. pose proof (H m (or_introl eq_refl)).
  assert (0 <= fold_right Rplus 0 l) by (apply IH; intros; apply H; right; auto). lra.
Qed.

(** What the successful call writes; left frame at the origin of the world. *)
Lemma Rle_0_minus a b : a <= b -> 0 <= b - a.
Proof. lra. Qed.
Theorem C41_kinematics : forall solve k lp rp v l b st j lf rf s,
  orthonormal (fst (linkTleft k)) ->
  fill solve k lp rp v l b st j lf rf = FillOk s ->
  v = true /\ l = true /\ b = true /\ st = true /\
  (length (leftContactPointsState s) = length lp /\ length (rightContactPointsState s) = length lp) /\
  map pointPosition (leftContactPointsState s) = lp /\
  map pointPosition (rightContactPointsState s) = firstn (length lp) (map (tapply (compose (tinverse (linkTleft k)) (linkTright k j))) rp) /\
  comPosition s = tapply (tinverse (linkTleft k)) (linkCoM k j) /\
  (baseRotation s, basePosition s) = compose (tinverse (linkTleft k)) (linkTbase k j) /\
  jointsConfiguration s = j /\ stateTime s = 0.
Proof.
  intros solve k lp rp v l b st j lf rf s Ho H. unfold fill in H.
  destruct v, l, b, st; cbn [negb orb] in H; try discriminate.
  destruct (Nat.leb (length lp) (length rp)) eqn:El; cbn [negb] in H; [|discriminate]. apply Nat.leb_le in El.
  destruct (wrenches _ _ _ _) as [[wl wr]|].
  2:{ destruct lf, rf; discriminate. }
  destruct (getForces solve lf wl) as [fl|]; [|discriminate]. destruct (getForces solve rf wr) as [fr|]; [|discriminate].
  destruct (give_forces _ fl) as [ls|] eqn:E1; [|discriminate]. destruct (give_forces _ fr) as [rs|] eqn:E2; [|discriminate].
  injection H as <-. apply give_forces_spec in E1 as (P1 & _ & _), E2 as (P2 & _ & _).
  cbn [filled leftContactPointsState rightContactPointsState comPosition basePosition baseRotation jointsConfiguration stateTime].
  repeat (split; [reflexivity|]). split; [|split; [|split; [|split; [reflexivity|split; [|split; reflexivity]]]]].
  - split; rewrite <- (map_length pointPosition), ?P1, ?P2; rewrite ?firstn_length, ?map_length; lia.
  - rewrite P1. unfold worldLeft, worldLink. rewrite inverse_left by auto.
    rewrite <- (map_id lp) at 2. apply map_ext. intros [[x y] z]. unfold tapply, tident, ident3, zero3. cbn. repeat (f_equal; try ring).
  - exact P2.
  - unfold worldBase, worldLink. destruct (compose _ _). reflexivity.
Qed.

(** Exactly the answer of the call when its preconditions hold: a number unless the
    CoM and the two foot frames have the same lateral coordinate. *)
Theorem C41_success : forall solve k lp rp j s1 xl1 yl1 tl1 s2 xl2 yl2 tl2,
  exact_solver solve -> 0 < xl1 -> 0 < yl1 -> 0 < xl2 -> 0 < yl2 ->
  length lp = length rp -> (length lp <= 4)%nat ->
  let com := tapply (tinverse (linkTleft k)) (linkCoM k j) in
  let l := snd (compose (tinverse (linkTleft k)) (linkTleft k)) in
  let r := snd (compose (tinverse (linkTleft k)) (linkTright k j)) in
  let answer := fill solve k lp rp true true true true j (fst (setFoot s1 xl1 yl1 tl1)) (fst (setFoot s2 xl2 yl2 tl2)) in
  (py com = py l /\ py com = py r -> answer = FillNaN) /\
  (~ (py com = py l /\ py com = py r) -> exists s, answer = FillOk s).
Proof.
  intros solve k lp rp j s1 xl1 yl1 tl1 s2 xl2 yl2 tl2 Hs Hx1 Hy1 Hx2 Hy2 Hlen H4 com l r answer.
  assert (Hset : forall s xl yl tl, 0 < xl -> 0 < yl -> exists d, fst (setFoot s xl yl tl) = Some d).
  { intros s xl yl tl Hx Hy. unfold setFoot. destruct (Rle_dec xl 0), (Rle_dec yl 0); try lra. eexists. reflexivity. }
  unfold answer, fill. cbn [negb orb]. rewrite Hlen, Nat.leb_refl. cbn [negb].
  unfold wrenches. change (worldCoM k j) with com. change (snd (worldLeft k)) with l. change (snd (worldRight k j)) with r.
  split.
  - intros (E1 & E2). unfold leftShare.
    destruct (Req_EM_T (py com - py r) 0); [|lra]. destruct (Req_EM_T (py com - py l) 0); [|lra].
    destruct (Hset s1 xl1 yl1 tl1 Hx1 Hy1) as (d1 & ->), (Hset s2 xl2 yl2 tl2 Hx2 Hy2) as (d2 & ->). reflexivity.
  - intros Hn. destruct (leftShare _ _ _) as [fl|] eqn:E.
    2:{ exfalso. unfold leftShare in E. destruct Req_EM_T; [|discriminate]. destruct Req_EM_T; [|discriminate]. apply Hn. lra. }
    assert (F4 : forall s xl yl tl w, 0 < xl -> 0 < yl -> exists fs, getForces solve (fst (setFoot s xl yl tl)) w = Some fs /\ length fs = 4%nat).
    { intros s xl yl tl [f t] Hx Hy. destruct (C28_wrench_partial solve s xl yl tl f t Hs Hx Hy _ (C26_corners s xl yl tl tident Hx Hy)) as (fs & A & B & _). eauto. }
    destruct (F4 s1 xl1 yl1 tl1 ((0, 0, fl), (0, - fl * (px com - px l), 0)) Hx1 Hy1) as (f1 & -> & L1).
    destruct (F4 s2 xl2 yl2 tl2 ((0, 0, normalForce k - fl), (0, - (normalForce k - fl) * (px com - px r), 0)) Hx2 Hy2) as (f2 & -> & L2).
    destruct (give_forces_some (map (tapply (worldLeft k)) lp) f1) as (ls & ->); [rewrite map_length; lia|].
    destruct (give_forces_some (firstn (length rp) (map (tapply (worldRight k j)) rp)) f2) as (rs & ->).
    { rewrite firstn_length, map_length. lia. }
    eexists. reflexivity.
Qed.

(** Everything the successful call says about the forces, in one lemma. *)
Lemma fill_forces solve k lp rp j lf rf s : length lp = 4%nat -> length rp = 4%nat ->
  fill solve k lp rp true true true true j lf rf = FillOk s ->
  exists fl f1 f2, leftShare (normalForce k) (py (worldCoM k j) - py (snd (worldLeft k))) (py (worldCoM k j) - py (snd (worldRight k j))) = Some fl /\
    getForces solve lf ((0, 0, fl), (0, - fl * (px (worldCoM k j) - px (snd (worldLeft k))), 0)) = Some f1 /\
    getForces solve rf ((0, 0, normalForce k - fl), (0, - (normalForce k - fl) * (px (worldCoM k j) - px (snd (worldRight k j))), 0)) = Some f2 /\
    map pointForce (leftContactPointsState s) = firstn 4 f1 /\ map pointForce (rightContactPointsState s) = firstn 4 f2 /\
    map pointPosition (leftContactPointsState s) = map (tapply (worldLeft k)) lp /\
    map pointPosition (rightContactPointsState s) = map (tapply (worldRight k j)) rp /\ comPosition s = worldCoM k j.
Proof.
  intros L1 L2 H. unfold fill in H. cbn [negb orb] in H. rewrite L1, L2 in H. cbn [Nat.leb negb] in H.
  unfold wrenches in H. destruct (leftShare _ _ _) as [fl|]; [|destruct lf, rf; discriminate].
  destruct (getForces solve lf _) as [f1|] eqn:G1; [|discriminate]. destruct (getForces solve rf _) as [f2|] eqn:G2; [|discriminate].
  destruct (give_forces _ f1) as [ls|] eqn:E1; [|discriminate]. destruct (give_forces _ f2) as [rs|] eqn:E2; [|discriminate].
  apply give_forces_spec in E1 as (P1 & Q1 & _), E2 as (P2 & Q2 & _). injection H as <-.
  exists fl, f1, f2. split; [reflexivity|]. split; [exact G1|]. split; [exact G2|].
  cbn [filled leftContactPointsState rightContactPointsState comPosition].
  rewrite Q1, Q2, P1, P2. rewrite map_length, L1. rewrite firstn_length, map_length, L2. cbn [Nat.min].
  repeat (split; [reflexivity|]). split; [|reflexivity].
  rewrite firstn_all2; [reflexivity|]. rewrite map_length. lia.
Qed.

(** The vertical forces support the weight, up to the thresholds of
    RectangularFoot; the horizontal ones cancel. *)
Theorem C41_weight_is_supported : forall solve k lp rp j s1 xl1 yl1 tl1 s2 xl2 yl2 tl2 s,
  exact_solver solve -> 0 < xl1 -> 0 < yl1 -> 0 < xl2 -> 0 < yl2 ->
  length lp = 4%nat -> length rp = 4%nat -> (forall m, In m (linkMasses k) -> 0 <= m) ->
  fill solve k lp rp true true true true j (fst (setFoot s1 xl1 yl1 tl1)) (fst (setFoot s2 xl2 yl2 tl2)) = FillOk s ->
  let F := resultant_force (recorded_forces s) in
  px F = 0 /\ py F = 0 /\ Rabs (pz F - weight k) <= 2/10000000 + 3/10000000 * weight k.
Proof.
  intros solve k lp rp j s1 xl1 yl1 tl1 s2 xl2 yl2 tl2 s Hs Hx1 Hy1 Hx2 Hy2 L1 L2 Hm H F.
  destruct (fill_forces _ _ _ _ _ _ _ _ L1 L2 H) as (fl & f1 & f2 & Hfl & G1 & G2 & Q1 & Q2 & _).
  pose proof (weight_nonneg k Hm) as HW. rewrite normalForce_weight in *.
  pose proof (leftShare_range _ _ _ _ HW Hfl) as Hr.
  destruct (foot_share solve Hs s1 xl1 yl1 tl1 Hx1 Hy1 fl (px (worldCoM k j) - px (snd (worldLeft k))) ltac:(lra)) as (_ & fs1 & _ & A1 & _ & A2 & A3 & A4 & A5).
  destruct (foot_share solve Hs s2 xl2 yl2 tl2 Hx2 Hy2 (weight k - fl) (px (worldCoM k j) - px (snd (worldRight k j))) ltac:(lra)) as (_ & fs2 & _ & B1 & _ & B2 & B3 & B4 & B5).
  rewrite G1 in A1. rewrite G2 in B1. injection A1 as <-. injection B1 as <-.
  assert (EF : F = add3 (resultant_force f1) (resultant_force f2)).
  { unfold F, resultant_force, recorded_forces. rewrite Q1, Q2, sum3_app, !firstn_all2 by lia. reflexivity. }
  rewrite EF. destruct (resultant_force f1) as [[a1 b1] c1], (resultant_force f2) as [[a2 b2] c2]. cbn in *.
  repeat split; try lra. revert A5 B5. clear. unfold Rabs. repeat destruct Rcase_abs; lra.
Qed.

(** No point pulls when the CoM and the frame of each foot are over the foot. *)
Theorem C41_points_push : forall solve k lp rp j s1 xl1 yl1 tl1 s2 xl2 yl2 tl2 s,
  exact_solver solve -> 0 < xl1 -> 0 < yl1 -> 0 < xl2 -> 0 < yl2 ->
  length lp = 4%nat -> length rp = 4%nat -> (forall m, In m (linkMasses k) -> 0 <= m) ->
  fill solve k lp rp true true true true j (fst (setFoot s1 xl1 yl1 tl1)) (fst (setFoot s2 xl2 yl2 tl2)) = FillOk s ->
  over_foot 0 xl1 yl1 tl1 (px (comPosition s) - px (snd (worldLeft k))) ->
  over_foot 0 xl2 yl2 tl2 (px (comPosition s) - px (snd (worldRight k j))) ->
  forall f, In f (recorded_forces s) -> 0 <= pz f.
Proof.
  intros solve k lp rp j s1 xl1 yl1 tl1 s2 xl2 yl2 tl2 s Hs Hx1 Hy1 Hx2 Hy2 L1 L2 Hm H O1 O2 f Hf.
  destruct (fill_forces _ _ _ _ _ _ _ _ L1 L2 H) as (fl & f1 & f2 & Hfl & G1 & G2 & Q1 & Q2 & _ & _ & Ec).
  pose proof (weight_nonneg k Hm) as HW. rewrite normalForce_weight in *.
  pose proof (leftShare_range _ _ _ _ HW Hfl) as Hr. rewrite Ec in O1, O2.
  assert (Hfirst : forall (l : list V3) x, In x (firstn 4 l) -> In x l).
  { intros l0 x Hx0. rewrite <- (firstn_skipn 4 l0). apply in_app_iff. auto. }
  unfold recorded_forces in Hf. rewrite Q1, Q2 in Hf. apply in_app_iff in Hf as [Hf|Hf]; apply Hfirst in Hf.
  - exact (foot_pushes solve s1 xl1 yl1 tl1 Hx1 Hy1 _ _ (proj1 Hr) _ O1 G1 f Hf).
  - exact (foot_pushes solve s2 xl2 yl2 tl2 Hx2 Hy2 _ _ (Rle_0_minus _ _ (proj2 Hr)) _ O2 G2 f Hf).
Qed.

(** Static balance.  Hypotheses: the points of the settings are the corners of the
    feet in the order of getPoints; the right foot is parallel to the left one;
    the CoM is laterally between the feet, and over both feet in the forward
    direction (with a margin of 1e-6 of the sides); no foot has a share below the
    threshold 1e-7.  Without the last two only the bounds above hold (see also
    C28): hence partial. *)
Theorem C41_static_balance_partial : forall solve k lp rp j s1 xl1 yl1 tl1 s2 xl2 yl2 tl2 s,
  exact_solver solve -> 0 < xl1 -> 0 < yl1 -> 0 < xl2 -> 0 < yl2 ->
  orthonormal (fst (linkTleft k)) ->
  getPoints (fst (setFoot s1 xl1 yl1 tl1)) tident = Some lp -> getPoints (fst (setFoot s2 xl2 yl2 tl2)) tident = Some rp ->
  fill solve k lp rp true true true true j (fst (setFoot s1 xl1 yl1 tl1)) (fst (setFoot s2 xl2 yl2 tl2)) = FillOk s ->
  let right := compose (tinverse (linkTleft k)) (linkTright k j) in
  let r := snd right in
  let com := comPosition s in
  fst right = ident3 ->
  (py com <= 0 /\ py r <= py com) \/ (0 <= py com /\ py com <= py r) ->
  over_foot (1/1000000) xl1 yl1 tl1 (px com) -> over_foot (1/1000000) xl2 yl2 tl2 (px com - px r) ->
  1/10000000 <= weight k * Rabs (py com - py r) / (Rabs (py com) + Rabs (py com - py r)) ->
  1/10000000 <= weight k * Rabs (py com) / (Rabs (py com) + Rabs (py com - py r)) ->
  resultant_force (recorded_forces s) = (0, 0, weight k) /\
  resultant_moment com (recorded_points s) (recorded_forces s) = zero3.
Proof.
  intros solve k lp rp j s1 xl1 yl1 tl1 s2 xl2 yl2 tl2 s Hs Hx1 Hy1 Hx2 Hy2 Ho Hlp Hrp H right r com Hrot Hbetween O1 O2 T1 T2.
  assert (L1 : length lp = 4%nat) by (rewrite C26_corners in Hlp by auto; injection Hlp as <-; reflexivity).
  assert (L2 : length rp = 4%nat) by (rewrite C26_corners in Hrp by auto; injection Hrp as <-; reflexivity).
  destruct (fill_forces _ _ _ _ _ _ _ _ L1 L2 H) as (fl & f1 & f2 & Hfl & G1 & G2 & Q1 & Q2 & P1 & P2 & Ec).
  assert (El : worldLeft k = tident) by (apply inverse_left; auto).
  change (worldRight k j) with right in Hfl, G2, P2. change (snd right) with r in Hfl, G2. fold com in Ec.
  rewrite <- Ec, El in Hfl. rewrite <- Ec, El in G1. rewrite <- Ec in G2. rewrite El in P1.
  change (snd tident) with zero3 in Hfl, G1. unfold zero3 in Hfl, G1. cbn [px py fst snd] in Hfl, G1.
  rewrite Rminus_0_r in Hfl, G1. rewrite normalForce_weight in Hfl, G2.
  assert (Hd : py com * (py com - py r) <= 0) by (destruct Hbetween; nra).
  pose proof (leftShare_balance _ _ _ _ Hd Hfl) as Hbal.
  assert (Hshare : fl = weight k * Rabs (py com - py r) / (Rabs (py com) + Rabs (py com - py r))).
  { unfold leftShare in Hfl. destruct (Req_EM_T (py com - py r) 0) as [Z|Z].
    - exfalso. rewrite Z, Rabs_R0 in T1. unfold Rdiv in T1. rewrite Rmult_0_r, Rmult_0_l in T1. lra.
    - injection Hfl as <-. pose proof (Rabs_pos (py com)). pose proof (Rabs_pos_lt _ Z). field. split; lra. }
  assert (Hshare2 : weight k - fl = weight k * Rabs (py com) / (Rabs (py com) + Rabs (py com - py r))).
  { rewrite Hshare. destruct (Req_EM_T (py com - py r) 0) as [Z|Z].
    - exfalso. rewrite Z, Rabs_R0 in T1. unfold Rdiv in T1. rewrite Rmult_0_r, Rmult_0_l in T1. lra.
    - pose proof (Rabs_pos (py com)). pose proof (Rabs_pos_lt _ Z). field. lra. }
  rewrite <- Hshare in T1. rewrite <- Hshare2 in T2.
  assert (HF1 : 0 <= fl) by (clear - T1; lra). assert (HF2 : 0 <= weight k - fl) by (clear - T2; lra).
  destruct (foot_exact solve Hs s1 xl1 yl1 tl1 Hx1 Hy1 fl (px com) HF1 lp O1 (or_intror T1) Hlp) as (fs1 & A1 & A2 & A3 & A4).
  destruct (foot_exact solve Hs s2 xl2 yl2 tl2 Hx2 Hy2 (weight k - fl) (px com - px r) HF2 rp O2 (or_intror T2) Hrp) as (fs2 & B1 & B2 & B3 & B4).
  assert (f1 = fs1) by congruence. assert (f2 = fs2) by congruence. subst fs1 fs2.
  unfold recorded_forces, recorded_points. rewrite Q1, Q2, P1, P2, !firstn_all2 by lia.
  assert (Eid : map (tapply tident) lp = lp).
  { rewrite <- (map_id lp) at 2. apply map_ext. intros [[x y] z]. unfold tapply, tident, ident3, zero3. cbn. repeat (f_equal; try ring). }
  assert (Etr : map (tapply right) rp = map (fun p => add3 p r) rp).
  { apply map_ext. intros [[x y] z]. unfold tapply. fold r. rewrite Hrot. unfold ident3. cbn [mul3 dot3].
    f_equal. repeat (f_equal; try ring). }
  rewrite Eid, Etr. split.
  - unfold resultant_force in *. rewrite sum3_app, A3, B3. cbn [add3]. repeat (f_equal; try ring).
  - rewrite moment_app by lia. rewrite moment_translate.
    rewrite (moment_shift com zero3) by lia. rewrite (moment_shift (sub3 com r) zero3) by lia.
    rewrite A3, A4, B3, B4. destruct com as [[cx cy] cz], r as [[rx ry] rz]. unfold zero3. cbn in *.
    repeat (f_equal; try ring). lra.
Qed.

(** A concrete robot: two links of 15 kg, feet 0.2 apart, CoM in the middle. *)
Definition exampleFk : fk :=
  mkFk tident (fun _ => (ident3, (0, -2/10, 0))) (fun _ => (ident3, (0, -1/10, 7/10))) (fun _ => (0, -1/10, 6/10))
       (fun _ _ => (zero3, zero3)) [15; 15].
Example C41_example : orthonormal (fst (linkTleft exampleFk)) /\
  let right := compose (tinverse (linkTleft exampleFk)) (linkTright exampleFk []) in
  let com := tapply (tinverse (linkTleft exampleFk)) (linkCoM exampleFk []) in
  fst right = ident3 /\ py (snd right) <= py com <= 0 /\
  over_foot (1/1000000) (2/10) (1/10) (1/10, 5/100, 0) (px com) /\
  1/10000000 <= weight exampleFk * Rabs (py com) / (Rabs (py com) + Rabs (py com - py (snd right))).
Proof.
  split; [cbn; repeat split; lra|]. cbv zeta. unfold over_foot, weight, gravity_acceleration.
  cbn [exampleFk tident linkTleft linkTright linkCoM tinverse compose fst snd ident3 transpose3 zero3 mul33 mul3 scale3 dot3 add3 px py pz linkMasses fold_right].
  unfold tapply, compose, ident3, tident, tinverse, zero3.
  cbn [fst snd transpose3 ident3 zero3 mul33 mul3 scale3 dot3 add3 px py pz].
  split; [repeat (f_equal; try ring)|]. split; [lra|]. split; [lra|].
  match goal with |- _ <= _ * Rabs ?a / (Rabs ?a + Rabs ?b) => rewrite (Rabs_left1 a), (Rabs_right b) by lra end.
  match goal with |- _ <= _ / ?d => replace d with (2/10) by lra end. lra.
Qed.
(** Refuted: aligned frames give a successful call with forces that are not numbers. *)
Theorem C41_aligned_feet_refuted : forall solve, exact_solver solve ->
  exists k lp rp lf rf, (forall m, In m (linkMasses k) -> 0 < m) /\ lf <> newFoot /\ rf <> newFoot /\
    fill solve k lp rp true true true true [] lf rf = FillNaN.
Proof.
  intros solve Hs.
  exists (mkFk tident (fun _ => (ident3, (1, 0, 0))) (fun _ => tident) (fun _ => (1/2, 0, 1)) (fun _ _ => (zero3, zero3)) [1]), [], [],
    (fst (setFoot newFoot 1 1 zero3)), (fst (setFoot newFoot 1 1 zero3)).
  assert (E : fst (setFoot newFoot 1 1 zero3) <> newFoot).
  { unfold setFoot. destruct (Rle_dec 1 0); [lra|]. cbn. discriminate. }
  split; [cbn; intros m [<-|[]]; lra|]. split; [exact E|]. split; [exact E|].
  eapply C41_success with (xl1 := 1) (yl1 := 1) (xl2 := 1) (yl2 := 1); auto; try lra; try (cbn; lia).
  cbn [linkTleft linkTright linkCoM]. unfold tinverse, compose, tapply, tident, ident3, zero3. cbn. split; ring.
Qed.
Print Assumptions C41_kinematics.
Print Assumptions C41_success.
Print Assumptions C41_weight_is_supported.
Print Assumptions C41_points_push.
Print Assumptions C41_static_balance_partial.
Print Assumptions C41_aligned_feet_refuted.
